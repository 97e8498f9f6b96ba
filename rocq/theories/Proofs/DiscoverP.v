(** The loop of [discover_times] (Model/ProxyReduceM.v): its invariant, and what it leaves. *)
From Coq Require Import Sorting.Sorted.
From Verif Require Export Proofs.ComputeLoopP Proofs.DiscoverCoreP Model.ProxyReduceM.
From Verif Require Import Base.Order.

Section PartsD.
Context {T : Type} {TT : Time T}.
Lemma th_hist_step (h : TimeHistory T) rest x : th_replays h rest -> Forall (le x) rest ->
  exists now rest' h', th_step_while_time_is h x = (negb (is_nil now), h') /\ rest = now ++ rest' /\ th_replays h' rest' /\
    th_buffer h' = th_buffer h ++ now /\ Forall (fun y => y = x) now /\ Forall (lt x) rest'.
Proof.
  intros H HL. unfold th_step_while_time_is. destruct h as [hist buf]. cbn [th_history th_buffer].
  destruct (th_step_ok x hist buf rest H) as (A & B & C).
  destruct (prefix_eq (fun y : T => y) x rest (tr_sorted _ _ H) HL) as [P1 P2]. cbv beta zeta in *.
  set (k := prefix_len _ rest) in *. exists (firstn k rest), (skipn k rest), (snd (th_step_loop hist buf x)).
  split.
  { rewrite (surjective_pairing (th_step_loop hist buf x)) at 1. rewrite A. f_equal.
    assert (K : k <= length rest). { subst k. clear. induction rest as [|u l IH]; simpl; auto. destruct (eqb _ x); lia. }
    destruct k as [|k]; auto. destruct rest; [simpl in K; lia|]. reflexivity. }
  split; [rewrite firstn_skipn; auto|]. auto.
Qed.
Lemma th_replays_advance_if m (h : TimeHistory T) rest : th_replays h rest -> th_replays (th_advance_if m h) rest.
Proof. intros [A B C]. destruct m; [|constructor; auto]. constructor; cbn; auto. Qed.
Lemma curok_th (c : T -> Prop) m (h : TimeHistory T) ent : (forall y, m = Some y -> forall t, c t -> tle y t = true) -> curok c (th_buffer h) ent -> curok c (th_buffer (th_advance_if m h)) ent.
Proof.
  intros H C. destruct m as [m|]; auto. cbn. eapply curok_in; [intros y; symmetry; apply dedup_osort_in|]. apply curok_adv; eauto.
Qed.
Lemma joins_from_in x ts y : In y (joins_from x ts) <-> exists t, In t ts /\ tle t x = false /\ y = join t x.
Proof.
  unfold joins_from. rewrite in_map_iff. setoid_rewrite filter_In. split.
  - intros (t & <- & H & N). exists t. apply negb_true_iff in N. rewrite join_comm. auto.
  - intros (t & H & N & ->). exists t. rewrite N, join_comm. auto.
Qed.
(** greatest lower bounds *)
Definition glb (m : option T) (l : list T) : Prop := match m with Some m => forall z, tle z m = true <-> Forall (fun t => tle z t = true) l | None => l = [] end.
Lemma update_meet_glb m o l l' : glb m l -> glb o l' -> glb (update_meet m o) (l ++ l').
Proof.
  destruct m as [m|], o as [o|]; cbn [update_meet glb]; intros H1 H2; subst; rewrite ?app_nil_r; auto.
  intros z. rewrite tle_meet, Forall_app, H1, H2. tauto.
Qed.
Lemma fold_meet_glb l : forall m l0, glb m l0 -> glb (fold_left (fun m t => update_meet m (Some t)) l m) (l0 ++ l).
Proof.
  induction l as [|t l IH]; intros m l0 H; cbn [fold_left]; [rewrite app_nil_r; auto|].
  change (t :: l) with ([t] ++ l). rewrite app_assoc. apply IH. apply update_meet_glb; auto. intros z. rewrite Forall_cons_iff. split; [auto|tauto].
Qed.
Lemma suffix_meet_glb (l : list T) : glb (hd_error (suffix_meet l)) l.
Proof.
  induction l as [|t l IH]; [reflexivity|]. cbn [suffix_meet]. destruct (suffix_meet l) as [|m ms]; cbn [hd_error glb] in *.
  - subst. intros z. rewrite Forall_cons_iff. split; [auto|tauto].
  - intros z. rewrite tle_meet, Forall_cons_iff, IH. tauto.
Qed.
Lemma th_meet_glb (h : TimeHistory T) rest : th_replays h rest -> glb (th_meet h) rest.
Proof. intros H. pose proof (th_replays_meet _ _ H) as M. unfold glb. destruct (th_meet h); tauto. Qed.
Lemma vh_meet_glb {V R} {OV : Ord V} {DR : Diff R} (h : ValueHistory V T R) rest : replays h rest -> glb (vh_meet h) (map (fun u => snd (fst u)) rest).
Proof. intros H. pose proof (replays_meet _ _ H) as M. unfold glb. destruct (vh_meet h) as [m|]; [|subst; auto]. intros z. rewrite Forall_map. apply M. Qed.
Lemma glb_nil : glb None [].
Proof. reflexivity. Qed.
Lemma glb_ext m l l' : (forall y, In y l <-> In y l') -> glb m l -> glb m l'.
Proof.
  intros H G. destruct m as [m|]; cbn in *.
  - intros z. rewrite G, !Forall_forall. split; intros Q y Hy; apply Q, H; auto.
  - subst. destruct l'; auto. destruct (proj2 (H t)); simpl; auto.
Qed.
End PartsD.

Section Groups.
Context {V T R : Type} {OV : Ord V} {TT : Time T} {DR : Diff R}.
Notation update := (V * T * R)%type.
Definition grouped (z : T) (l l' : list update) : Prop := forall c v, sumf (fun s => eqb (join s z) c) l v = sumf (fun s => eqb (join s z) c) l' v.
Lemma grouped_app z (l l' us : list update) : grouped z l l' -> grouped z (l ++ us) (l' ++ us).
Proof. intros H c v. rewrite !sumf_app, H. auto. Qed.
Lemma sumf_map_adv f m (l : list update) v : sumf f (map (advance_by_meet m) l) v = sumf (fun s => f (join s m)) l v.
Proof. induction l as [|u l IH]; auto. cbn [map]. rewrite !sumf_cons, IH. reflexivity. Qed.
Lemma grouped_adv z m (h : ValueHistory V T R) l : tle m z = true -> grouped z (vh_buffer h) l -> grouped z (vh_buffer (vh_advance_buffer_by h m)) l.
Proof.
  intros L H c v. rewrite <- H. cbn [vh_advance_buffer_by vh_buffer]. rewrite (sumf_same_weights _ _ (map (advance_by_meet m) (vh_buffer h))) by apply consolidate_weight.
  rewrite sumf_map_adv. apply sumf_ext. intros u _. rewrite join_assoc. f_equal. f_equal. apply join_eq_r; auto.
Qed.
(** a group with no time in the advanced buffer is empty *)
Lemma grouped_absent m (h : ValueHistory V T R) l c v : grouped m (vh_buffer h) l -> ~ In c (buffer_times (vh_advance_buffer_by h m)) -> sumf (fun s => eqb (join s m) c) l v = dzero.
Proof.
  intros H N. rewrite <- H. pose proof (sumf_map_adv (fun s => eqb s c) m (vh_buffer h) v) as E.
  rewrite <- E. rewrite <- (sumf_same_weights _ (consolidate (A:=V*T) (map (advance_by_meet m) (vh_buffer h)))) by apply consolidate_weight.
  apply sumf_zero. intros u Hu. destruct (eqb_spec (snd (fst u)) c) as [Eu|]; auto. destruct N. rewrite <- Eu.
  unfold buffer_times. apply (in_map (fun u : update => snd (fst u))). exact Hu.
Qed.
End Groups.

Section Loop.
Context {V T R : Type} {OV : Ord V} {TT : Time T} {DR : Diff R}.
Notation times l := (map (fun u => snd (fst u)) l).
Notation update := (V * T * R)%type.
Variable upper : list T.
Variables LB LO P : list T. Variable LI : list update.
Definition jset := joins (LB ++ P ++ times LI ++ LO).
Definition kseeded (t : T) : Prop := exists sd, In sd (LB ++ P) /\ tle sd t = true.

Record ghost := { eb : list T; rb : list T; ei : list update; ri : list update; eo : list T; ro : list T; ec : list T; sy : list T; mo : list (T * T); vis : list T }.
Notation state := (dstate V T R).
Definition rem (g : ghost) (s : state) : list T := rb g ++ times (ri g) ++ ro g ++ ds_times s ++ ds_synth s.
Definition cov (g : ghost) (s : state) (t : T) : Prop := exists x, In x (rem g s) /\ tle x t = true.
Definition above (g : ghost) (s : state) (z : T) : Prop := forall y, Forall (fun t => tle y t = true) (rem g s) -> tle y z = true.
Definition kset (g : ghost) : list T := LB ++ P ++ sy g.

Record dinv (g : ghost) (s : state) : Prop := {
  di_b : th_replays (ds_batch s) (rb g); di_LB : LB = eb g ++ rb g;
  di_i : replays (ds_input s) (ri g); di_LI : LI = ei g ++ ri g;
  di_o : th_replays (ds_output s) (ro g); di_LO : LO = eo g ++ ro g;
  di_bb : curok (cov g s) (th_buffer (ds_batch s)) (eb g);
  di_bi : Forall (stands (cov g s) (times (ei g))) (buffer_times (ds_input s));
  di_bg : forall z, above g s z -> grouped z (vh_buffer (ds_input s)) (ei g);
  di_bo : curok (cov g s) (th_buffer (ds_output s)) (eo g);
  di_cur : curok (cov g s) (ds_current s) (ec g);
  di_times : exists passed, P = passed ++ ds_times s /\ forall p, In p passed -> In p (ec g);
  di_sy : forall y, In y (sy g) -> In y (ec g) \/ In y (ds_synth s);
  di_ssy : forall y, In y (ds_synth s) -> In y (sy g);
  di_ecK : forall y, In y (ec g) -> In y (P ++ sy g);
  di_Ps : StronglySorted le (ds_times s);
  di_meets : ds_meets s = suffix_meet (ds_times s);
  di_meet : match ds_meet s with Some m => glb (Some m) (rem g s) | None => rem g s = [] \/ LB ++ P = [] end;
  di_synth : strictly_sorted (ds_synth s);
  di_syb : Forall (fun y => ac_less_equal upper y = false /\ kseeded y) (sy g);
  di_J : Forall (fun y => In y jset) (rem g s); di_vJ : Forall (fun y => In y jset) (vis g);
  di_nd : NoDup (vis g); di_lt : forall e y, In e (vis g) -> In y (rem g s) -> lt e y;
  di_ent : forall e, In e (eb g ++ times (ei g) ++ eo g ++ ec g) -> In e (vis g);
  di_new : Forall (fun y => ac_less_equal upper y = true /\ kseeded y) (ds_pended s);
  di_mo : ds_moments s = map fst (mo g);
  di_mos : StronglySorted (fun a b : T * T => lt (fst a) (fst b) /\ tle (snd a) (snd b) = true) (mo g);
  di_moi : Forall (fun xm : T * T => tle (snd xm) (fst xm) = true /\ In (fst xm) (vis g) /\ ac_less_equal upper (fst xm) = false /\
             (exists b, In b (kset g) /\ tle b (fst xm) = true) /\ Forall (fun t => tle (snd xm) t = true) (rem g s)) (mo g);
  di_B : forall x m e, In (x, m) (mo g) -> In e (kset g) \/ In e LO -> le e x -> tle e x = true \/ In (join e x) (kset g ++ ds_pended s);
  di_B2 : forall x m e, In (x, m) (mo g) -> In e (times LI) -> le e x -> tle e x = true \/ In (join e x) (kset g ++ ds_pended s) \/
            forall v, sumf (fun s => leb s x && eqb (join s m) (join e m)) LI v = dzero;
  di_C : forall e b, In e (vis g) -> ac_less_equal upper e = false -> In b (kset g) -> le b e -> tle b e = true \/ In (join b e) (kset g ++ ds_pended s);
  di_C' : forall e b, In e (vis g) -> In b (kset g) -> tle b e = true -> In e (ds_moments s) \/ In e (ds_pended s)
}.

Lemma jset_closed a b : In a jset -> In b jset -> In (join a b) jset.
Proof. apply joins_closed. Qed.

Lemma discover_next_ok g s x : dinv g s -> discover_next s = Some x -> In x (rem g s) /\ Forall (le x) (rem g s).
Proof.
  intros C. unfold discover_next. intros E. pose proof (least_spec [th_time (ds_batch s); hd_error (ds_times s); vh_time (ds_input s); th_time (ds_output s); hd_error (ds_synth s)]) as L.
  rewrite E in L. destruct L as [L1 L2].
  rewrite (th_replays_time _ _ (di_b _ _ C)), (replays_time _ _ (di_i _ _ C)), (th_replays_time _ _ (di_o _ _ C)) in *.
  assert (HD : forall (l : list update) y, option_map (fun u => snd (fst u)) (hd_error l) = Some y -> In y (times l)).
  { intros [|u l] y H; [discriminate|]. inversion H; subst. simpl; auto. }
  assert (HD' : forall (l : list T) y, hd_error l = Some y -> In y l). { intros [|u l] y H; [discriminate|]. inversion H; subst. simpl; auto. }
  assert (SM : forall (h : ValueHistory V T R) l, replays h l ->
    (forall y, option_map (fun u => snd (fst u)) (hd_error l) = Some y -> le x y) -> Forall (le x) (times l)).
  { intros h l H Hx. apply rp_sorted in H. destruct H as [|u l H HF]; [constructor|]. simpl. specialize (Hx _ eq_refl).
    constructor; auto. apply Forall_map. eapply Forall_impl; [|exact HF]. intros w Hw. eapply le_trans; eauto. }
  assert (SM' : forall l : list T, StronglySorted le l -> (forall y, hd_error l = Some y -> le x y) -> Forall (le x) l).
  { intros l H Hx. destruct H as [|u l H HF]; [constructor|]. specialize (Hx _ eq_refl).
    constructor; auto. eapply Forall_impl; [|exact HF]. intros w Hw. eapply le_trans; eauto. }
  split.
  - unfold rem. rewrite !in_app_iff. destruct L1 as [L|[L|[L|[L|[L|[]]]]]]; eauto 8.
  - rewrite !Forall_cons_iff in L2. destruct L2 as (L2b & L2t & L2i & L2o & L2s & _).
    unfold rem. rewrite !Forall_app. repeat split.
    + apply SM'; auto. apply (tr_sorted _ _ (di_b _ _ C)).
    + apply (SM _ _ (di_i _ _ C)); auto.
    + apply SM'; auto. apply (tr_sorted _ _ (di_o _ _ C)).
    + apply SM'; auto. apply (di_Ps _ _ C).
    + apply SM'; auto. apply strictly_StronglySorted. apply (di_synth _ _ C).
Qed.
Lemma discover_next_none g s : dinv g s -> discover_next s = None -> rem g s = [].
Proof.
  intros C. unfold discover_next. intros E. pose proof (least_spec [th_time (ds_batch s); hd_error (ds_times s); vh_time (ds_input s); th_time (ds_output s); hd_error (ds_synth s)]) as L.
  rewrite E in L. rewrite !Forall_cons_iff in L. destruct L as (L1 & L2 & L3 & L4 & L5 & _).
  rewrite (th_replays_time _ _ (di_b _ _ C)) in L1. rewrite (replays_time _ _ (di_i _ _ C)) in L3. rewrite (th_replays_time _ _ (di_o _ _ C)) in L4.
  unfold rem. destruct (rb g); [|discriminate]. destruct (ri g); [|discriminate]. destruct (ro g); [|discriminate].
  destruct (ds_times s); [|discriminate]. destruct (ds_synth s); [|discriminate]. reflexivity.
Qed.
Lemma kseeded_mono x y : tle x y = true -> kseeded x -> kseeded y.
Proof. intros L (sd & H1 & H2). exists sd. split; auto. eapply tle_trans; eauto. Qed.
Lemma stands_kseeded (c : T -> Prop) ts b : (forall e, In e ts -> kseeded e) -> stands c ts b -> kseeded b.
Proof. intros H (e & He & L & _). eapply kseeded_mono; eauto. Qed.
Lemma stands_jset (c : T -> Prop) ts b x : c x -> In x jset -> (forall e, In e ts -> In e jset) -> stands c ts b -> In (join b x) jset.
Proof. intros Cx Hx H (e & He & _ & E). rewrite (E _ Cx). apply jset_closed; auto. Qed.
Lemma kset_seeded g s y : dinv g s -> In y (kset g) -> kseeded y.
Proof.
  intros C H. unfold kset in H. rewrite app_assoc in H. apply in_app_iff in H. destruct H as [H|H]; [exists y; split; [auto|apply tle_refl]|].
  pose proof (di_syb _ _ C) as S. rewrite Forall_forall in S. apply S; auto.
Qed.

Lemma dstep_ok g s x : dinv g s -> discover_next s = Some x ->
  exists g' s', discover_at upper x s = Some s' /\ dinv g' s' /\ vis g' = vis g ++ [x].
Proof.
  intros C Hx. destruct (discover_next_ok _ _ _ C Hx) as [Xin Xle].
  pose proof Xle as Xle'. unfold rem in Xle'. rewrite !Forall_app in Xle'. destruct Xle' as (Lb & Li & Lo & Lt & Ls).
  rewrite Forall_map in Li.
  destruct (th_hist_step _ _ x (di_b _ _ C) Lb) as (nb & rb' & hb & Eb1 & Eb2 & Eb3 & Eb4 & Eb5 & Eb6).
  destruct (hist_step _ _ x (di_i _ _ C) Li) as (ni & ri' & hi & Ei1 & Ei2 & Ei3 & Ei4 & Ei5 & Ei6).
  destruct (th_hist_step _ _ x (di_o _ _ C) Lo) as (no & ro' & ho & Eo1 & Eo2 & Eo3 & Eo4 & Eo5 & Eo6).
  destruct (list_step x _ (strictly_StronglySorted _ (di_synth _ _ C)) Ls) as (Ks0 & Ks1 & Ks2).
  destruct (list_step x _ (di_Ps _ _ C) Lt) as (Kt0 & Kt1 & Kt2).
  set (k := leading x (ds_synth s)) in *. set (j := leading x (ds_times s)) in *.
  set (ns := firstn k (ds_synth s)) in *. set (nt := firstn j (ds_times s)) in *.
  set (synth0 := skipn k (ds_synth s)) in *. set (times' := skipn j (ds_times s)) in *.
  assert (Es : ds_synth s = ns ++ synth0) by (symmetry; apply firstn_skipn). assert (Et : ds_times s = nt ++ times') by (symmetry; apply firstn_skipn).
  set (batch := if negb (is_nil nb) then th_advance_if (ds_meet s) hb else hb).
  set (cur := ds_current s ++ ns ++ nt).
  set (int := negb (is_nil nb) || (0 <? k) || (0 <? j) || existsb (fun t => tle t x) (th_buffer batch) || existsb (fun t => tle t x) cur).
  set (within := negb (ac_less_equal upper x)).
  set (hi' := if within && int then advance_if (ds_meet s) hi else hi). set (ho' := if within && int then th_advance_if (ds_meet s) ho else ho).
  set (moments' := if within && int then ds_moments s ++ [x] else ds_moments s).
  set (tmp := if within then (if int then joins_from x (buffer_times hi') ++ joins_from x (th_buffer ho') else []) ++ joins_with x (th_buffer batch) ++ joins_with x cur else []).
  set (td := sort_dedup tmp). set (later := filter (ac_less_equal upper) td). set (now := filter (fun t => negb (ac_less_equal upper t)) td).
  set (pended' := if negb within && int then (ds_pended s ++ later) ++ [x] else ds_pended s ++ later).
  set (synth := if is_nil now then synth0 else dedup (osort (synth0 ++ now))).
  set (m := update_meet (fold_left (fun m t => update_meet m (Some t)) synth (update_meet (update_meet (update_meet None (th_meet batch)) (vh_meet hi')) (th_meet ho'))) (hd_error (skipn j (ds_meets s)))).
  set (g' := {| eb := eb g ++ nb; rb := rb'; ei := ei g ++ ni; ri := ri'; eo := eo g ++ no; ro := ro'; ec := ec g ++ ns ++ nt; sy := sy g ++ now;
                mo := if within && int then mo g ++ [(x, match ds_meet s with Some m => m | None => x end)] else mo g; vis := vis g ++ [x] |}).
  set (s' := {| ds_batch := batch; ds_input := hi'; ds_output := ho'; ds_times := times'; ds_meets := skipn j (ds_meets s); ds_synth := synth;
          ds_current := sort_dedup (match m with Some m => map (fun t => join t m) cur | None => cur end); ds_meet := m; ds_moments := moments'; ds_pended := pended' |}).
  exists g', s'. split.
  { unfold discover_at. rewrite Ei1, Eo1, Eb1. cbn [fst snd]. reflexivity. }
  assert (Cx : cov g s x) by (exists x; split; [auto|apply tle_refl]).
  assert (HmR : forall m, ds_meet s = Some m -> Forall (fun y => tle m y = true) (rem g s)).
  { intros m0 E0. pose proof (di_meet _ _ C) as H. rewrite E0 in H. apply H. apply tle_refl. }
  assert (Hm : forall m, ds_meet s = Some m -> forall t, cov g s t -> tle m t = true).
  { intros m0 E0 t (y & Hy & L). pose proof (HmR _ E0) as H. rewrite Forall_forall in H. eapply tle_trans; [apply H; exact Hy|exact L]. }
  assert (HxJ : In x jset). { pose proof (di_J _ _ C) as H. rewrite Forall_forall in H. auto. }
  (* buffers after the step *)
  assert (BT : forall h h' : ValueHistory V T R, forall n, vh_buffer h' = vh_buffer h ++ n -> buffer_times h' = buffer_times h ++ times n).
  { intros h h' n E0. unfold buffer_times. rewrite E0, map_app. auto. }
  assert (BI0 : Forall (stands (cov g s) (times (ei g ++ ni))) (buffer_times hi)).
  { rewrite (BT _ _ _ Ei4), map_app. apply Forall_app. split.
    - eapply Forall_impl; [|apply (di_bi _ _ C)]. intros y. apply stands_mono; auto. intros; apply in_app_iff; auto.
    - apply Forall_forall. intros y Hy. apply stands_self, in_app_iff; auto. }
  assert (BI : Forall (stands (cov g s) (times (ei g ++ ni))) (buffer_times hi')).
  { unfold hi'. destruct (within && int); auto. destruct (ds_meet s) as [m0|] eqn:Em; auto. cbn [advance_if]. unfold buffer_times in *. rewrite Forall_map in *. cbn.
    apply (consolidate_forall (stands (cov g s) (times (ei g ++ ni)))). apply Forall_map. eapply Forall_impl; [|exact BI0]. intros u Hu. cbn. apply stands_adv; auto. }
  assert (GI0 : forall z, above g s z -> grouped z (vh_buffer hi) (ei g ++ ni)).
  { intros z Hz. rewrite Ei4. apply grouped_app. apply (di_bg _ _ C); auto. }
  assert (GI : forall z, above g s z -> grouped z (vh_buffer hi') (ei g ++ ni)).
  { intros z Hz. unfold hi'. destruct (within && int); auto. destruct (ds_meet s) as [m0|] eqn:Em; auto. cbn [advance_if]. apply grouped_adv; auto. }
  assert (BO : curok (cov g s) (th_buffer ho') (eo g ++ no)).
  { assert (BO0 : curok (cov g s) (th_buffer ho) (eo g ++ no)) by (rewrite Eo4; apply curok_app, (di_bo _ _ C)).
    unfold ho'. destruct (within && int); auto. apply curok_th; auto. }
  assert (BB : curok (cov g s) (th_buffer batch) (eb g ++ nb)).
  { assert (BB0 : curok (cov g s) (th_buffer hb) (eb g ++ nb)) by (rewrite Eb4; apply curok_app, (di_bb _ _ C)).
    unfold batch. destruct (negb _); auto. apply curok_th; auto. }
  assert (CU : curok (cov g s) cur (ec g ++ ns ++ nt)) by (apply curok_app, (di_cur _ _ C)).
  assert (RB : th_replays batch rb'). { unfold batch. destruct (negb _); auto. apply th_replays_advance_if; auto. }
  assert (RI : replays hi' ri'). { unfold hi'. destruct (within && int); auto. apply replays_advance_if; auto. }
  assert (RO : th_replays ho' ro'). { unfold ho'. destruct (within && int); auto. apply th_replays_advance_if; auto. }
  (* who has entered *)
  assert (Q : forall (l : list update) e, Forall (fun u => snd (fst u) = x) l -> In e (times l) -> e = x).
  { intros l e H He. apply in_map_iff in He. destruct He as (u & <- & Hu). rewrite Forall_forall in H. auto. }
  assert (Q' : forall l e, Forall (fun y : T => y = x) l -> In e l -> e = x). { intros l e H He. rewrite Forall_forall in H. auto. }
  assert (AE : forall e, In e ((eb g ++ nb) ++ times (ei g ++ ni) ++ (eo g ++ no) ++ ec g ++ ns ++ nt) -> In e (vis g ++ [x])).
  { intros e He. pose proof (di_ent _ _ C e) as VE. rewrite !map_app, !in_app_iff in *. cbn [In].
    assert (D : In e (vis g) \/ e = x); [|destruct D as [?| ->]; auto].
    destruct He as [[He|He]|[[He|He]|[[He|He]|[He|[He|He]]]]]; try (left; tauto); right; eauto. }
  assert (VL : forall e, In e (vis g ++ [x]) -> le e x).
  { intros e He. apply in_app_iff in He. destruct He as [He|[<-|[]]]; [|apply le_refl]. apply lt_le. apply (di_lt _ _ C); auto. }
  assert (HJ : forall e, In e (vis g ++ [x]) -> In e jset).
  { intros e He. apply in_app_iff in He. destruct He as [He|[<-|[]]]; auto. pose proof (di_vJ _ _ C) as H. rewrite Forall_forall in H. auto. }
  assert (PT : forall e, In e (ds_times s) -> In e P). { intros e He. destruct (di_times _ _ C) as (passed & -> & _). apply in_app_iff; auto. }
  assert (EK : forall e, In e ((eb g ++ nb) ++ ec g ++ ns ++ nt) -> In e (kset g)).
  { intros e He. unfold kset. rewrite (di_LB _ _ C), Eb2. rewrite !in_app_iff in *. destruct He as [[He|He]|[He|[He|He]]]; auto.
    - pose proof (di_ecK _ _ C e He) as H. rewrite in_app_iff in H. tauto.
    - right. right. apply (di_ssy _ _ C). rewrite Es. apply in_app_iff; auto.
    - right. left. apply PT. rewrite Et. apply in_app_iff; auto. }
  assert (SB : forall e, In e ((eb g ++ nb) ++ ec g ++ ns ++ nt) -> kseeded e) by (intros e He; eapply kset_seeded; [exact C|apply EK; exact He]).
  assert (BS : forall b, In b (th_buffer batch ++ cur) -> kseeded b /\ exists e, In e (kset g) /\ tle e b = true).
  { intros b Hb. apply in_app_iff in Hb. assert (Sb : exists ts, (forall e, In e ts -> In e ((eb g ++ nb) ++ ec g ++ ns ++ nt)) /\ stands (cov g s) ts b).
    { destruct Hb as [Hb|Hb]; [exists (eb g ++ nb); destruct BB as [BB _]; rewrite Forall_forall in BB|exists (ec g ++ ns ++ nt); destruct CU as [CU _]; rewrite Forall_forall in CU];
      (split; [intros e He; apply in_app_iff; auto|auto]). }
    destruct Sb as (ts & H1 & H2). split; [eapply stands_kseeded; [|exact H2]; auto|]. destruct H2 as (e & He & L & _). exists e. auto. }
  assert (HI : int = true -> kseeded x /\ exists b, In b (kset g) /\ tle b x = true).
  { intros H. assert (G : exists b, In b (kset g) /\ tle b x = true).
    { revert H. unfold int. rewrite !orb_true_iff. intros [[[[H|H]|H]|H]|H].
      - exists x. split; [|apply tle_refl]. apply EK. destruct nb as [|u nb]; [discriminate|]. inversion Eb5; subst. rewrite !in_app_iff. simpl; auto.
      - exists x. split; [|apply tle_refl]. apply EK. rewrite Ks0 in H. destruct ns as [|y ns']; [discriminate|]. inversion Ks1; subst. rewrite !in_app_iff. simpl; auto.
      - exists x. split; [|apply tle_refl]. apply EK. rewrite Kt0 in H. destruct nt as [|y nt']; [discriminate|]. inversion Kt1; subst. rewrite !in_app_iff. simpl; auto.
      - apply existsb_exists in H. destruct H as (b & Hb & L). destruct (BS b) as [_ (e & He & Le)]; [apply in_app_iff; auto|]. exists e. split; auto. eapply tle_trans; eauto.
      - apply existsb_exists in H. destruct H as (b & Hb & L). destruct (BS b) as [_ (e & He & Le)]; [apply in_app_iff; auto|]. exists e. split; auto. eapply tle_trans; eauto. }
    split; auto. destruct G as (b & Hb & L). eapply kseeded_mono; [exact L|]. eapply kset_seeded; eauto. }
  (* the interesting times up to x have all been entered *)
  assert (KE : forall b, In b (kset g) -> le b x -> In b ((eb g ++ nb) ++ ec g ++ ns ++ nt)).
  { assert (NL : forall b, lt x b -> le b x -> False) by (intros b H1 H2; exact (lt_irrefl _ (lt_le_trans _ _ _ H1 H2))).
    intros b Hb L. unfold kset in Hb. rewrite !in_app_iff in Hb. rewrite !in_app_iff. destruct Hb as [Hb|[Hb|Hb]].
    - rewrite (di_LB _ _ C), Eb2, !in_app_iff in Hb. destruct Hb as [Hb|[Hb|Hb]]; auto. rewrite Forall_forall in Eb6. destruct (NL b); auto.
    - destruct (di_times _ _ C) as (passed & E0 & Hp). rewrite E0, Et, !in_app_iff in Hb. destruct Hb as [Hb|[Hb|Hb]]; auto. rewrite Forall_forall in Kt2. destruct (NL b); auto.
    - apply (di_sy _ _ C) in Hb. rewrite Es, !in_app_iff in Hb. destruct Hb as [Hb|[Hb|Hb]]; auto. rewrite Forall_forall in Ks2. destruct (NL b); auto. }
  assert (OE : forall e, In e LO -> le e x -> In e (eo g ++ no)).
  { intros e He L. rewrite (di_LO _ _ C), Eo2, !in_app_iff in He. rewrite in_app_iff. destruct He as [He|[He|He]]; auto. rewrite Forall_forall in Eo6.
    destruct (lt_irrefl _ (lt_le_trans _ _ _ (Eo6 _ He) L)). }
  assert (FB : forall b, In b (kset g) -> le b x -> exists y, In y (th_buffer batch ++ cur) /\ stands (cov g s) [b] y).
  { intros b Hb L. pose proof (KE b Hb L) as H. apply in_app_iff in H. destruct H as [H|H].
    - destruct BB as [_ BB]. destruct (BB b H) as (y & Hy & Sy). exists y. split; auto. apply in_app_iff; auto.
    - destruct CU as [_ CU]. destruct (CU b H) as (y & Hy & Sy). exists y. split; auto. apply in_app_iff; auto. }
  assert (SJ : forall e y, stands (cov g s) [e] y -> join y x = join e x). { intros e y (e' & [<-|[]] & _ & H). auto. }
  assert (INT : forall b, In b (kset g) -> tle b x = true -> int = true).
  { intros b Hb L. destruct (FB b Hb (tle_le _ _ L)) as (y & Hy & Sy). pose proof (stands_back _ _ _ _ Cx Sy L) as Ly. unfold int. apply in_app_iff in Hy.
    rewrite !orb_true_iff. destruct Hy as [Hy|Hy]; [left; right|right]; apply existsb_exists; exists y; auto. }
  (* what is made *)
  assert (Tin1 : within = true -> forall b, In b (th_buffer batch ++ cur) -> tle b x = false -> In (join b x) tmp).
  { intros W b Hb N. unfold tmp. rewrite W, !in_app_iff, !joins_with_in. apply in_app_iff in Hb. destruct Hb as [Hb|Hb]; [right; left|right; right]; eauto. }
  assert (Tin2 : within = true -> int = true -> forall b, In b (buffer_times hi') \/ In b (th_buffer ho') -> tle b x = false -> In (join b x) tmp).
  { intros W Ii b Hb N. unfold tmp. rewrite W, Ii, !in_app_iff, !joins_from_in. left. destruct Hb as [Hb|Hb]; [left|right]; eauto. }
  assert (Tok : forall y, In y tmp -> within = true /\ exists b, tle b x = false /\ y = join b x /\ In y jset /\ kseeded y).
  { intros y Hy. unfold tmp in Hy. destruct within eqn:W; [|destruct Hy]. split; auto.
    assert (Hy' : (int = true /\ exists b, (In b (buffer_times hi') \/ In b (th_buffer ho')) /\ tle b x = false /\ y = join b x) \/ exists b, In b (th_buffer batch ++ cur) /\ tle b x = false /\ y = join b x).
    { rewrite !in_app_iff, !joins_with_in in Hy. destruct Hy as [Hy|[(b & H1 & H2)|(b & H1 & H2)]].
      - destruct int; [|destruct Hy]. left. split; auto. rewrite in_app_iff, !joins_from_in in Hy. destruct Hy as [(b & H1 & H2)|(b & H1 & H2)]; exists b; auto.
      - right. exists b. rewrite in_app_iff. auto.
      - right. exists b. rewrite in_app_iff. auto. }
    assert (SS : forall b, In b (buffer_times hi') \/ In b (th_buffer ho') \/ In b (th_buffer batch ++ cur) -> stands (cov g s) (vis g ++ [x]) b).
    { intros b [Hb|[Hb|Hb]].
      - rewrite Forall_forall in BI. eapply stands_mono; [| |apply BI; exact Hb]; auto. intros e He; apply AE. rewrite !in_app_iff; auto.
      - destruct BO as [BO _]. rewrite Forall_forall in BO. eapply stands_mono; [| |apply BO; exact Hb]; auto. intros e He; apply AE. rewrite in_app_iff in He. rewrite !in_app_iff. tauto.
      - apply in_app_iff in Hb. destruct Hb as [Hb|Hb].
        + destruct BB as [BB _]. rewrite Forall_forall in BB. eapply stands_mono; [| |apply BB; exact Hb]; auto. intros e He; apply AE. rewrite !in_app_iff in *. tauto.
        + destruct CU as [CU _]. rewrite Forall_forall in CU. eapply stands_mono; [| |apply CU; exact Hb]; auto. intros e He; apply AE. rewrite !in_app_iff in *. tauto. }
    destruct Hy' as [(Ii & b & Hb & N & ->)|(b & Hb & N & ->)]; exists b; (split; [auto|]); (split; [auto|]).
    - split; [eapply stands_jset; [exact Cx|exact HxJ|exact HJ|apply SS; tauto]|]. eapply kseeded_mono; [apply join_ub_r|]. apply HI; auto.
    - split; [eapply stands_jset; [exact Cx|exact HxJ|exact HJ|apply SS; tauto]|]. eapply kseeded_mono; [apply join_ub_l|]. apply BS; auto. }
  assert (Tlt : forall y, In y tmp -> lt x y /\ tle x y = true).
  { intros y Hy. destruct (Tok y Hy) as (_ & b & N & -> & _). apply (joins_with_gt x [b]). apply joins_with_in. exists b. simpl; auto. }
  assert (Nin : forall y, In y now <-> In y tmp /\ ac_less_equal upper y = false). { intros y. unfold now, td. rewrite filter_In, sort_dedup_in, negb_true_iff. tauto. }
  assert (Lin : forall y, In y later <-> In y tmp /\ ac_less_equal upper y = true). { intros y. unfold later, td. rewrite filter_In, sort_dedup_in. tauto. }
  assert (Sin : forall y, In y synth <-> In y synth0 \/ In y now).
  { intros y. unfold synth. destruct now eqn:En; cbn [is_nil]; [simpl; tauto|]. rewrite dedup_osort_in, in_app_iff. tauto. }
  assert (Sso : strictly_sorted synth).
  { unfold synth. pose proof (di_synth _ _ C) as H. rewrite Es in H. apply strictly_sorted_app in H. destruct (is_nil now); [tauto|]. apply dedup_osort_sorted. }
  assert (Pin : forall y, In y pended' <-> In y (ds_pended s) \/ In y later \/ (within = false /\ int = true /\ y = x)).
  { intros y. unfold pended'. destruct within, int; cbn [negb andb]; rewrite ?in_app_iff; cbn [In]; split; intros; intuition congruence. }
  assert (Min : forall y, In y moments' <-> In y (ds_moments s) \/ (within = true /\ int = true /\ y = x)).
  { intros y. unfold moments'. destruct within, int; cbn [andb]; rewrite ?in_app_iff; cbn [In]; split; intros; intuition congruence. }
  assert (KN : forall y, In y (kset g ++ ds_pended s) -> In y (kset g' ++ pended')).
  { intros y. unfold kset. cbn [sy g']. rewrite !in_app_iff, Pin. tauto. }
  assert (KT : forall y, In y tmp -> In y (kset g' ++ pended')).
  { intros y Hy. unfold kset. cbn [sy g']. rewrite !in_app_iff, Pin, Nin, Lin. destruct (ac_less_equal upper y); tauto. }
  assert (KD : forall y, In y (kset g') -> In y (kset g) \/ In y now). { intros y. unfold kset. cbn [sy g']. rewrite !in_app_iff. tauto. }
  assert (KM : forall y, In y (kset g) -> In y (kset g')). { intros y. unfold kset. cbn [sy g']. rewrite !in_app_iff. tauto. }
  assert (Nlt : forall y, In y now -> lt x y) by (intros y Hy; apply Tlt, Nin; auto).
  assert (REM : forall y, In y (rem g' s') -> (In y (rem g s) /\ lt x y) \/ (In y tmp /\ lt x y /\ tle x y = true)).
  { intros y Hy. unfold rem in *. cbn [g' s' rb ri ro ds_times ds_synth] in Hy. rewrite !in_app_iff in Hy. rewrite Eb2, Ei2, Eo2, Es, Et, !map_app, !in_app_iff.
    destruct Hy as [Hy|[Hy|[Hy|[Hy|Hy]]]].
    - left. split; [tauto|]. rewrite Forall_forall in Eb6. auto.
    - left. split; [tauto|]. apply in_map_iff in Hy. destruct Hy as (u & <- & Hu). rewrite Forall_forall in Ei6. auto.
    - left. split; [tauto|]. rewrite Forall_forall in Eo6. auto.
    - left. split; [tauto|]. rewrite Forall_forall in Kt2. auto.
    - apply Sin in Hy. destruct Hy as [Hy'|Hy']; [left|right; apply Nin in Hy'; destruct Hy' as [Hy' _]; split; auto]. split; [tauto|]. rewrite Forall_forall in Ks2. auto. }
  assert (COV : forall t, cov g' s' t -> cov g s t).
  { intros t (y & Hy & L). destruct (REM _ Hy) as [[H _]|(_ & _ & H)]; [exists y; auto|]. exists x. split; auto. eapply tle_trans; eauto. }
  assert (LOW : forall z, Forall (fun t => tle z t = true) (rem g s) -> Forall (fun t => tle z t = true) (rem g' s')).
  { intros z H. rewrite Forall_forall in *. intros y Hy. destruct (REM _ Hy) as [[H1 _]|(_ & _ & H1)]; auto. eapply tle_trans; [apply H; exact Xin|exact H1]. }
  assert (ABV : forall z, above g' s' z -> above g s z) by (intros z H y Hy; apply H, LOW; auto).
  assert (RLT : forall y, In y (rem g' s') -> lt x y). { intros y Hy. destruct (REM _ Hy) as [[_ H]|(_ & H & _)]; auto. }
  assert (MG : glb m (rem g' s')).
  { pose proof (update_meet_glb _ _ _ _ glb_nil (th_meet_glb _ _ RB)) as G1. pose proof (update_meet_glb _ _ _ _ G1 (vh_meet_glb _ _ RI)) as G2.
    pose proof (update_meet_glb _ _ _ _ G2 (th_meet_glb _ _ RO)) as G3. pose proof (fold_meet_glb synth _ _ G3) as G4.
    assert (TB : glb (hd_error (skipn j (ds_meets s))) times').
    { rewrite (di_meets _ _ C), suffix_meet_skipn. apply suffix_meet_glb. }
    pose proof (update_meet_glb _ _ _ _ G4 TB) as G5. eapply glb_ext; [|exact G5]. intros y. unfold rem. cbn [g' s' rb ri ro ds_times ds_synth]. rewrite !in_app_iff. simpl. tauto. }
  assert (MC : forall m', m = Some m' -> forall t, cov g' s' t -> tle m' t = true).
  { intros m' E0 t (y & Hy & L). rewrite E0 in MG. pose proof (proj1 (MG m') (tle_refl _)) as H. rewrite Forall_forall in H. eapply tle_trans; [apply H; exact Hy|exact L]. }
  assert (MX : int = true -> exists m0, ds_meet s = Some m0 /\ glb (Some m0) (rem g s)).
  { intros H. pose proof (di_meet _ _ C) as D. destruct (ds_meet s) as [m0|]; [exists m0; auto|]. exfalso. destruct D as [D|D]; [rewrite D in Xin; destruct Xin|].
    destruct (HI H) as [(sd & Hs & _) _]. rewrite D in Hs. destruct Hs. }
  assert (MOIN : forall y mm, In (y, mm) (mo g') -> In (y, mm) (mo g) \/ (within = true /\ int = true /\ y = x /\ ds_meet s = Some mm)).
  { intros y mm. cbn [mo g']. destruct within eqn:W, int eqn:Ii; cbn [andb]; auto. rewrite in_app_iff. intros [H|[H|[]]]; auto. destruct (MX eq_refl) as (m0 & E0 & _). rewrite E0 in *. inversion H; subst. auto. }
  assert (MVIS : forall y mm, In (y, mm) (mo g) -> In y (vis g)).
  { intros y mm H. pose proof (di_moi _ _ C) as D. rewrite Forall_forall in D. apply (D (y, mm) H). }
  assert (VLT : forall y z, In y (vis g) -> In z now -> lt y z).
  { intros y z Hy Hz. eapply lt_trans; [apply (di_lt _ _ C y x); auto|auto]. }
  assert (NLE : forall a b : T, lt a b -> le b a -> False) by (intros a b H1 H2; exact (lt_irrefl _ (lt_le_trans _ _ _ H1 H2))).
  split; [|reflexivity].
  constructor; cbn [g' s' eb rb ei ri eo ro ec sy vis ds_batch ds_input ds_output ds_times ds_meets ds_synth ds_current ds_meet ds_moments ds_pended]; auto.
  - rewrite <- app_assoc, <- Eb2. apply (di_LB _ _ C).
  - rewrite <- app_assoc, <- Ei2. apply (di_LI _ _ C).
  - rewrite <- app_assoc, <- Eo2. apply (di_LO _ _ C).
  - eapply curok_weaken; [exact COV|auto].
  - eapply Forall_impl; [|exact BI]. intros y. apply stands_mono; auto.
  - eapply curok_weaken; [exact COV|auto].
  - eapply curok_in; [intros y; symmetry; apply sort_dedup_in|]. destruct m as [m'|] eqn:Em.
    + apply curok_adv; [apply MC; auto|]. eapply curok_weaken; [exact COV|auto].
    + eapply curok_weaken; [exact COV|auto].
  - destruct (di_times _ _ C) as (passed & E0 & H). exists (passed ++ nt). rewrite <- app_assoc, <- Et. split; auto.
    intros p Hp. rewrite !in_app_iff in *. destruct Hp; auto.
  - intros y Hy. rewrite Sin, !in_app_iff. apply in_app_iff in Hy. destruct Hy as [Hy|Hy]; auto. apply (di_sy _ _ C) in Hy. rewrite Es, in_app_iff in Hy. tauto.
  - intros y Hy. apply Sin in Hy. apply in_app_iff. destruct Hy as [Hy|Hy]; auto. left. apply (di_ssy _ _ C). rewrite Es. apply in_app_iff; auto.
  - intros y Hy. pose proof (di_ecK _ _ C y) as H. rewrite !in_app_iff in *. destruct Hy as [Hy|[Hy|Hy]]; [tauto| |].
    + right. left. apply (di_ssy _ _ C). rewrite Es. apply in_app_iff; auto.
    + left. apply PT. rewrite Et. apply in_app_iff; auto.
  - pose proof (di_Ps _ _ C) as H. rewrite Et in H. clear -H. induction nt; auto. inversion H; auto.
  - rewrite (di_meets _ _ C). apply suffix_meet_skipn.
  - destruct m; auto.
  - apply Forall_app. split; [apply (di_syb _ _ C)|]. apply Forall_forall. intros y Hy. apply Nin in Hy. destruct Hy as [Hy E0]. split; auto. destruct (Tok _ Hy) as (_ & b & _ & _ & _ & H). auto.
  - apply Forall_forall. intros y Hy. destruct (REM _ Hy) as [[H _]|(H & _)].
    + pose proof (di_J _ _ C) as H'. rewrite Forall_forall in H'. auto.
    + destruct (Tok _ H) as (_ & b & _ & _ & H' & _). auto.
  - apply Forall_app. split; [apply (di_vJ _ _ C)|auto].
  - apply (Permutation_NoDup (Permutation_cons_append (vis g) x)). constructor; [|apply (di_nd _ _ C)]. intros H. exact (lt_irrefl x (di_lt _ _ C x x H Xin)).
  - intros e y He Hy. apply in_app_iff in He. destruct He as [He|[<-|[]]]; auto. eapply lt_trans; [apply (di_lt _ _ C e x); auto|auto].
  - apply Forall_forall. intros y Hy. apply Pin in Hy. destruct Hy as [Hy|[Hy|(W & Ii & ->)]].
    + pose proof (di_new _ _ C) as H. rewrite Forall_forall in H. auto.
    + apply Lin in Hy. destruct Hy as [Hy E0]. split; auto. destruct (Tok _ Hy) as (_ & b & _ & _ & _ & H). auto.
    + split; [|apply HI; auto]. unfold within in W. apply negb_false_iff in W. auto.
  - cbn [mo g']. unfold moments'. rewrite (di_mo _ _ C). destruct (within && int); auto. rewrite map_app. reflexivity.
  - cbn [mo g']. destruct (within && int) eqn:WI; [|apply (di_mos _ _ C)]. apply andb_true_iff in WI. destruct WI as [W Ii]. destruct (MX Ii) as (m0 & E0 & G0). rewrite E0.
    pose proof (di_moi _ _ C) as D. rewrite Forall_forall in D.
    assert (SA : forall l, StronglySorted (fun a b : T * T => lt (fst a) (fst b) /\ tle (snd a) (snd b) = true) l -> (forall a, In a l -> lt (fst a) x /\ tle (snd a) m0 = true) ->
      StronglySorted (fun a b : T * T => lt (fst a) (fst b) /\ tle (snd a) (snd b) = true) (l ++ [(x, m0)])).
    { clear. induction l as [|a l IH]; intros H1 H2; cbn [app]; [constructor; constructor|]. inversion H1; subst. constructor; [apply IH; auto; intros; apply H2; simpl; auto|].
      apply Forall_app. split; auto. constructor; auto. apply H2; simpl; auto. }
    apply SA; [apply (di_mos _ _ C)|]. intros a Ha. destruct (D a Ha) as (_ & H1 & _ & _ & H2). split; [apply (di_lt _ _ C); auto|]. apply G0; auto.
  - apply Forall_forall. intros [y mm] Hy. cbn [fst snd]. destruct (MOIN _ _ Hy) as [H|(W & Ii & -> & E0)].
    + pose proof (di_moi _ _ C) as D. rewrite Forall_forall in D. destruct (D _ H) as (H1 & H2 & H3 & (b & H4 & H4') & H5). cbn [fst snd] in *.
      split; auto. split; [apply in_app_iff; auto|]. split; auto. split; [exists b; auto|]. apply LOW; auto.
    + pose proof (HmR _ E0) as HR. split; [rewrite Forall_forall in HR; auto|]. split; [apply in_app_iff; simpl; auto|]. split; [unfold within in W; apply negb_true_iff in W; auto|].
      split; [|apply LOW; auto]. destruct (HI Ii) as [_ (b & H1 & H2)]. exists b. auto.
  - intros y mm e Hy He L. destruct (MOIN _ _ Hy) as [H|(W & Ii & -> & E0)].
    + assert (He' : In e (kset g) \/ In e LO).
      { destruct He as [He|He]; auto. apply KD in He. destruct He as [He|He]; auto. destruct (NLE y e); auto. apply VLT; auto. eapply MVIS; eauto. }
      destruct (di_B _ _ C y mm e H He' L) as [D|D]; auto.
    + destruct He as [He|He].
      * apply KD in He. destruct He as [He|He]; [|destruct (NLE x e); auto]. destruct (FB e He L) as (b & Hb & Sb). destruct (tle b x) eqn:Lbx.
        { left. destruct Sb as (e' & [<-|[]] & L' & _). eapply tle_trans; eauto. }
        right. apply KT. rewrite <- (SJ _ _ Sb). apply Tin1; auto.
      * destruct BO as [_ BO]. destruct (BO e (OE e He L)) as (b & Hb & Sb). destruct (tle b x) eqn:Lbx.
        { left. destruct Sb as (e' & [<-|[]] & L' & _). eapply tle_trans; eauto. }
        right. apply KT. rewrite <- (SJ _ _ Sb). apply Tin2; auto.
  - intros y mm e Hy He L. destruct (MOIN _ _ Hy) as [H|(W & Ii & -> & E0)].
    + destruct (di_B2 _ _ C y mm e H He L) as [D|[D|D]]; auto.
    + destruct (tle e x) eqn:Le; auto. right. destruct (MX Ii) as (m0 & E1 & G0). rewrite E0 in E1. injection E1 as <-.
      assert (Lmx : tle mm x = true) by (apply (Hm _ E0); auto).
      assert (AB : above g s mm) by (intros y0 H0; apply G0; auto).
      assert (Ehi : hi' = vh_advance_buffer_by hi mm) by (unfold hi'; rewrite W, Ii, E0; reflexivity).
      set (c := join e mm). destruct (existsb (fun t => eqb t c) (buffer_times hi')) eqn:EX.
      * left. apply existsb_exists in EX. destruct EX as (t & Ht & E2). destruct (eqb_spec t c) as [->|]; [|discriminate]. assert (Nc : tle c x = false).
        { destruct (tle c x) eqn:Lc; auto. rewrite (tle_trans _ _ _ (join_ub_l e mm) Lc) in Le. discriminate. }
        apply KT. assert (Ej : join e x = join c x). { unfold c. rewrite join_assoc. f_equal. symmetry. apply join_eq_r; auto. }
        rewrite Ej. apply Tin2; auto.
      * right. intros v. assert (NC : ~ In c (buffer_times hi')). { intros Hc. assert (existsb (fun t => eqb t c) (buffer_times hi') = true); [|congruence]. apply existsb_exists. exists c. split; auto. apply eqb_refl. }
        rewrite Ehi in NC. pose proof (grouped_absent mm hi (ei g ++ ni) c v (GI0 mm AB) NC) as Z. rewrite (di_LI _ _ C), Ei2, app_assoc, sumf_app.
        rewrite (sumf_zero _ ri'), dplus_0_r.
        { rewrite <- Z. apply sumf_ext. intros u Hu. assert (Lu : leb (snd (fst u)) x = true); [|rewrite Lu; auto]. apply leb_le. apply VL, AE. rewrite !in_app_iff. right. left.
          apply (in_map (fun u : update => snd (fst u))); auto. }
        intros u Hu. rewrite Forall_forall in Ei6. assert (Lu : leb (snd (fst u)) x = false); [|rewrite Lu; auto]. apply leb_gt. auto.
  - intros e b He Ue Hb L. apply in_app_iff in He. destruct He as [He|[<-|[]]].
    + apply KD in Hb. destruct Hb as [Hb|Hb]; [|destruct (NLE e b); auto]. destruct (di_C _ _ C e b He Ue Hb L) as [D|D]; auto.
    + apply KD in Hb. destruct Hb as [Hb|Hb]; [|destruct (NLE x b); auto]. destruct (FB b Hb L) as (y & Hy & Sy). destruct (tle y x) eqn:Ly.
      { left. destruct Sy as (e' & [<-|[]] & L' & _). eapply tle_trans; eauto. }
      right. apply KT. rewrite <- (SJ _ _ Sy). apply Tin1; auto. unfold within. rewrite Ue. auto.
  - intros e b He Hb L. rewrite Min, Pin. apply in_app_iff in He. destruct He as [He|[<-|[]]].
    + apply KD in Hb. destruct Hb as [Hb|Hb]; [|destruct (NLE e b); [auto|apply tle_le; auto]]. destruct (di_C' _ _ C e b He Hb L); auto.
    + apply KD in Hb. destruct Hb as [Hb|Hb]; [|destruct (NLE x b); [auto|apply tle_le; auto]]. pose proof (INT b Hb L) as Ii. destruct within; [left; right; auto|right; right; right; auto].
Qed.

(** ** The loop *)
Lemma dloop_ok n : forall g s, dinv g s -> exists fin s' g', discover_loop upper n s = Some (fin, s') /\ dinv g' s' /\
  if fin then discover_next s' = None else length (vis g') = length (vis g) + 2 ^ n.
Proof.
  induction n as [|n IH]; intros g s C; cbn [discover_loop].
  - destruct (discover_next s) as [x|] eqn:E.
    + destruct (dstep_ok g s x C E) as (g' & s' & E1 & C' & Ev). rewrite E1. exists false, s', g'. split; auto. split; auto.
      rewrite Ev, app_length. reflexivity.
    + exists true, s, g. auto.
  - destruct (IH g s C) as (fin & s1 & g1 & E1 & C1 & V1'). rewrite E1. destruct fin.
    + exists true, s1, g1. auto.
    + destruct (IH g1 s1 C1) as (fin & s2 & g2 & E2 & C2 & V2'). exists fin, s2, g2. split; auto. split; auto.
      destruct fin; auto. cbn [Nat.pow]. lia.
Qed.
Lemma dvis_bound g s : dinv g s -> length (vis g) < 2 ^ (length LB + length P + length LI + length LO).
Proof.
  intros C. assert (H : length (vis g) <= length jset).
  { apply NoDup_incl_length; [apply (di_nd _ _ C)|]. intros y Hy. pose proof (di_vJ _ _ C) as H. rewrite Forall_forall in H. auto. }
  pose proof (joins_length (LB ++ P ++ times LI ++ LO)) as E. fold jset in E.
  rewrite !app_length, !map_length in E. replace (length LB + length P + length LI + length LO) with (length LB + (length P + (length LI + length LO))) by lia. lia.
Qed.
Lemma dloop_finishes g s : dinv g s -> vis g = [] -> exists s' g',
  discover_loop upper (length LB + length P + length LI + length LO) s = Some (true, s') /\ dinv g' s' /\ rem g' s' = [].
Proof.
  intros C Ev. destruct (dloop_ok (length LB + length P + length LI + length LO) g s C) as (fin & s' & g' & E & C' & H).
  destruct fin.
  - exists s', g'. split; auto. split; auto. apply discover_next_none; auto.
  - pose proof (dvis_bound _ _ C'). rewrite Ev in H. cbn [length] in H. lia.
Qed.
End Loop.

