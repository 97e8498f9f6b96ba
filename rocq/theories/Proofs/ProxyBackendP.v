(** A backend for the proxy reduce.  There is none in the repository, which leaves it to its users; this one shows that what is
    asked of a backend can be met.  Its identifiers are the pairs of key and value themselves, and it has one hash in each window. *)
From Coq Require Import Sorting.Sorted.
From Verif Require Import Proofs.JoinTimesP.
From Verif Require Export Proofs.ProxyRetireP.
From Verif Require Import Base.Order.

Section Backend.
Context {B1 M1 B2 M2 K V T R1 R2 H : Type} {OK : Ord K} {OV : Ord V} {OH : Ord H} {TT : Time T} {D1 : Diff R1} {D2 : Diff R2} {A2 : Abelian R2}.
Variable bops1 : BatchOps B1 M1 T. Variable contents1 : B1 -> list (K * V * T * R1). Variable laws1 : BatchLaws (D:=K*V) bops1 contents1.
Variable bops2 : BatchOps B2 M2 T. Variable contents2 : B2 -> list (K * V * T * R2). Variable laws2 : BatchLaws (D:=K*V) bops2 contents2.
Variable hash : K -> H.
Variable logic : K -> list (V * R1) -> list (V * R2) -> list (V * R2).
Variable F : K -> list (V * R1) -> V -> R2.
Hypothesis logic_ok : reduces logic F.
Variable build : list (list (K * V * T * R2)) -> Description T -> B2.
Hypothesis HB : builds (D:=K*V) bops2 contents2 laws2 (fun chain => consolidated (A:=K*V*T) (concat chain)) build.
Notation I := (K * V)%type.
Notation meaning := (meaning (K:=K) (H:=H) (I:=I)).
Notation state := (list (Description T) * list (list (K * V * T * R2)))%type.

Definition pb_bridge {R} {DR : Diff R} (h : H) (c : list (K * V * T * R)) : bridge H I T R :=
  consolidate (A:=H*I*T) (map (fun u => (hash (fst (fst (fst u))), fst (fst u), snd (fst u), snd u)) (filter (fun u => eqb (hash (fst (fst (fst u)))) h) c)).
Definition pb_of {R} (k : K) (l : list (I * R)) : list (V * R) := map (fun x => (snd (fst x), snd x)) (filter (fun x => eqb (fst (fst x)) k) l).
Definition pb_correct (ins : list (I * R1)) (outs : list (I * R2)) : list (I * R2) :=
  flat_map (fun k => map (fun vr => ((k, fst vr), snd vr)) (logic k (pb_of k ins) (pb_of k outs))) (sort_dedup (map (fun x => fst (fst x)) ins ++ map (fun x => fst (fst x)) outs)).
Fixpoint cut {X} (n : nat) (es : list nat) (l : list X) : list (list X) := match es with [] => [] | e :: es => firstn (e - n) l :: cut e es (skipn (e - n) l) end.
Definition pb : ReduceBackend B1 B2 T R1 R2 H I state := {|
  rb_seed_times := fun inst s => sort_dedup (map (fun u => (hash (fst (fst (fst u))), snd (fst u))) (flat_map contents1 (ri_input inst)));
  rb_begin := fun descs s => (descs, map (fun _ => []) descs);
  rb_next_window := fun inst changed cursor s =>
    match nth_error changed cursor with
    | Some h => (s, Datatypes.S cursor, Some {| w_keys := [h]; w_input := pb_bridge h (flat_map contents1 (ri_source inst ++ ri_input inst)); w_output := pb_bridge h (flat_map contents2 (ri_output inst)) |})
    | None => (s, cursor, None)
    end;
  rb_corrections := fun keys in_ends ins out_ends outs s =>
    let cs := map (fun io => pb_correct (fst io) (snd io)) (List.combine (cut 0 in_ends ins) (cut 0 out_ends outs)) in (s, (concat cs, ends 0 cs));
  rb_emit := fun tile records s => (fst s, add_at tile (map (fun u => (snd (fst (fst u)), snd (fst u), snd u)) records) (snd s));
  rb_finish := fun s => (([], []), map (fun de => build [consolidate (A:=K*V*T) (snd de)] (fst de)) (List.combine (fst s) (snd s)))
|}.
Definition pb_meaning : meaning V := fun h i => if eqb (hash (fst i)) h then Some i else None.
Definition pb_session (inst : ReduceInstance B1 B2 T) (changed : list H) (descs : list (Description T)) (cursor : nat) (keys : list H) (mn1 mn2 : meaning V) (emitted : list (list (K * V * T * R2))) (s : state) : Prop :=
  s = (descs, emitted) /\ extends mn1 pb_meaning /\ extends mn2 pb_meaning.

Lemma cut_ends {X} : forall (ls : list (list X)) n, cut n (ends n ls) (concat ls) = ls.
Proof.
  induction ls as [|l ls IH]; intros n; auto. cbn [ends cut concat]. replace (n + length l - n) with (length l) by lia.
  rewrite firstn_app, firstn_all, Nat.sub_diag, skipn_app, skipn_all, Nat.sub_diag. cbn [firstn skipn app]. rewrite app_nil_r, IH. auto.
Qed.
Lemma pb_meaning_is h i kv : pb_meaning h i = Some kv -> kv = i /\ hash (fst i) = h.
Proof. unfold pb_meaning. destruct (eqb_spec (hash (fst i)) h); [|discriminate]. intros E. injection E as <-. auto. Qed.
Lemma pb_sound : sound hash pb_meaning.
Proof. intros h i k v E. apply pb_meaning_is in E. destruct E as [E1 E2]. subst i. exact E2. Qed.
Lemma pb_named {R} (mn : meaning V) h (l : list (I * R)) : extends mn pb_meaning -> all_named mn h l -> named mn h l = l /\ Forall (fun x => hash (fst (fst x)) = h) l.
Proof.
  intros X HA. induction HA as [|x l Hx HA [IH1 IH2]]; [split; [auto|constructor]|]. unfold named in *. cbn [flat_map]. rewrite IH1. destruct (mn h (fst x)) as [kv|] eqn:E; [|congruence]. apply X, pb_meaning_is in E. destruct E as [-> E]. destruct x; auto.
Qed.
Lemma pb_shown {R} (mn : meaning V) (p : bridge H I T R) : extends mn pb_meaning -> all_shown mn p -> shown mn p = map (fun u => (snd (fst (fst u)), snd (fst u), snd u)) p.
Proof.
  intros X HA. induction HA as [|x l Hx HA IH]; auto. unfold shown in *. cbn [flat_map map]. rewrite IH. destruct (mn _ _) as [kv|] eqn:E; [|congruence]. apply X, pb_meaning_is in E. destruct E as [-> E]. auto.
Qed.
Lemma pb_of_weight {R} {DR : Diff R} k (l : list (I * R)) v : weight (pb_of k l) v = weight l (k, v).
Proof.
  induction l as [|[[k' v'] r] l IH]; auto. rewrite weight_cons. cbn [fst snd]. rewrite eqb_pairs. unfold pb_of in *. cbn [filter fst]. destruct (eqb k' k); cbn [map fst snd andb]; auto.
  rewrite weight_cons. cbn [fst snd]. rewrite IH. auto.
Qed.
Lemma pb_of_consolidated {R} {DR : Diff R} k (l : list (I * R)) : consolidated l -> consolidated (pb_of k l).
Proof.
  induction l as [|[[k' v'] r] l IH]; intros C; [split; constructor|]. apply consolidated_cons_inv in C. destruct C as (C1 & C2 & C3). specialize (IH C1). unfold pb_of in *. cbn [filter fst]. destruct (eqb_spec k' k) as [->|]; [|auto].
  cbn [map fst snd]. apply consolidated_cons; auto. rewrite Forall_forall in *. intros x Hx. apply in_map_iff in Hx. destruct Hx as (y & <- & Hy). apply filter_In in Hy. destruct Hy as [Hy Ey]. apply C3 in Hy. destruct y as [[k2 v2] r2]. cbn [fst snd] in *. destruct (eqb_spec k2 k) as [->|]; [|discriminate]. apply lt_pair in Hy. destruct Hy as [Hy|[_ Hy]]; auto. destruct (lt_irrefl _ Hy).
Qed.
Lemma pb_of_nil {R} k (l : list (I * R)) : (pb_of k l = [] <-> ~ In k (map (fun x => fst (fst x)) l)).
Proof.
  unfold pb_of. induction l as [|[[k' v'] r] l IH]; [cbn; tauto|]. cbn [filter map fst In]. destruct (eqb_spec k' k) as [E|E]; cbn [map]; [split; [discriminate|tauto]|]. rewrite IH. tauto.
Qed.
Lemma pb_correct_weight (ins : list (I * R1)) (outs : list (I * R2)) k v :
  weight (pb_correct ins outs) (k, v) = if existsb (eqb k) (sort_dedup (map (fun x => fst (fst x)) ins ++ map (fun x => fst (fst x)) outs)) then weight (logic k (pb_of k ins) (pb_of k outs)) v else dzero.
Proof.
  unfold pb_correct. pose proof (sort_dedup_sorted (map (fun x : I * R1 => fst (fst x)) ins ++ map (fun x : I * R2 => fst (fst x)) outs)) as HS. revert HS.
  generalize (sort_dedup (map (fun x : I * R1 => fst (fst x)) ins ++ map (fun x : I * R2 => fst (fst x)) outs)) as ks.
  assert (HW : forall k' (l : list (V * R2)), weight (map (fun vr => ((k', fst vr), snd vr)) l) (k, v) = if eqb k' k then weight l v else dzero).
  { intros k' l. induction l as [|[a r] l IH]; cbn [map fst snd]; [rewrite weight_nil; destruct (eqb k' k); auto|]. rewrite !weight_cons. cbn [fst snd]. rewrite eqb_pairs, IH. cbn [fst snd]. destruct (eqb k' k), (eqb a v); auto. }
  induction ks as [|k' ks IH]; intros HS; auto. cbn [flat_map existsb]. apply strictly_sorted_cons_inv in HS. destruct HS as [HS HF]. rewrite weight_app, HW, (IH HS). rewrite (eqb_sym k k'). destruct (eqb_spec k' k) as [->|]; cbn [orb]; [|apply dplus_0_l].
  replace (existsb (eqb k) ks) with false; [apply dplus_0_r|]. symmetry. apply not_true_is_false. intros X. apply existsb_exists in X. destruct X as (x & X1 & X2). destruct (eqb_spec k x) as [<-|]; [|discriminate]. rewrite Forall_forall in HF. exact (lt_irrefl _ (HF _ X1)).
Qed.

Lemma pb_corrects h (ins : list (I * R1)) (outs : list (I * R2)) (mn1 mn2 : meaning V) : extends mn1 pb_meaning -> extends mn2 pb_meaning -> consolidated ins -> consolidated outs -> all_named mn1 h ins -> all_named mn2 h outs ->
  corrects hash F mn1 pb_meaning (h, ins, outs) (pb_correct ins outs).
Proof.
  intros X1 X2 C1 C2 N1 N2. destruct (pb_named mn1 h ins X1 N1) as [E1 H1]. destruct (pb_named mn2 h outs X2 N2) as [E2 H2].
  assert (HA : all_named pb_meaning h (pb_correct ins outs)).
  { unfold all_named, pb_correct. rewrite Forall_forall in *. intros x Hx. apply in_flat_map in Hx. destruct Hx as (k & Hk & Hx). apply in_map_iff in Hx. destruct Hx as (y & <- & _). cbn [fst]. unfold pb_meaning. cbn [fst].
    apply sort_dedup_in, in_app_iff in Hk. replace (hash k) with h; [rewrite eqb_refl; discriminate|].
    destruct Hk as [Hk|Hk]; apply in_map_iff in Hk; destruct Hk as (u & <- & Hu); [symmetry; apply (H1 _ Hu)|symmetry; apply (H2 _ Hu)]. }
  assert (HB2 : all_named pb_meaning h outs).
  { unfold all_named in *. rewrite Forall_forall in *. intros x Hx. specialize (N2 x Hx). destruct (mn2 h (fst x)) eqn:E; [|congruence]. rewrite (X2 _ _ _ E). discriminate. }
  split; [exact HA|]. intros k Hk i Ci Wi v. rewrite E1 in Wi.
  assert (Ei : i = pb_of k ins).
  { apply consolidated_unique; [exact Ci|apply pb_of_consolidated, C1|]. intros a. rewrite Wi. symmetry. apply pb_of_weight. }
  assert (HAo : all_named pb_meaning h (outs ++ pb_correct ins outs)) by (apply Forall_app; auto).
  destruct (pb_named pb_meaning h _ (fun _ _ _ e => e) HAo) as [-> _]. rewrite weight_app, pb_correct_weight. subst i. destruct (existsb _ _) eqn:EX.
  - apply existsb_exists in EX. destruct EX as (x & EX & E'). destruct (eqb_spec k x) as [<-|]; [|discriminate]. apply sort_dedup_in, in_app_iff in EX.
    rewrite <- (proj2 logic_ok k (pb_of k ins) (pb_of k outs)); auto using pb_of_consolidated; [rewrite pb_of_weight; apply dplus_comm|].
    destruct EX as [EX|EX]; [left|right]; intros E; apply pb_of_nil in E; auto.
  - assert (NX : ~ In k (map (fun x => fst (fst x)) ins ++ map (fun x => fst (fst x)) outs)).
    { intros HI. apply not_true_iff_false in EX. apply EX, existsb_exists. exists k. split; [apply sort_dedup_in; auto|apply eqb_refl]. }
    rewrite in_app_iff in NX. rewrite (proj2 (pb_of_nil k ins)) by tauto. rewrite (proj1 logic_ok), dplus_0_r, <- pb_of_weight, (proj2 (pb_of_nil k outs)) by tauto. auto.
Qed.

Lemma pb_shows {R} {DR : Diff R} h lower (c : list (K * V * T * R)) : shows hash pb_meaning lower [h] (pb_bridge h c) c.
Proof.
  split; [apply consolidate_consolidated|]. split.
  - unfold all_shown, pb_bridge. apply (consolidate_items (fun x => pb_meaning (fst (fst x)) (snd (fst x)) <> None)). rewrite Forall_map, Forall_forall. intros u _. cbn [fst snd]. unfold pb_meaning. rewrite eqb_refl. discriminate.
  - intros k v t [->|[]] _. unfold pb_bridge. rewrite (acc_same_weights (D:=K*V) _ _ (k, v) t (shown_same_weights pb_meaning _ _ (consolidate_weight (A:=H*I*T) _))).
    induction c as [|u c IH]; auto. rewrite acc_cons'. cbn [filter]. destruct (eqb_spec (hash (fst (fst (fst u)))) (hash k)) as [E|E].
    + cbn [map]. unfold shown in *. cbn [flat_map fst snd]. unfold pb_meaning at 1. rewrite eqb_refl. cbn [app]. rewrite acc_cons', IH. auto.
    + rewrite IH. destruct u as [[[k' v'] t'] r']. cbn [fst snd] in *. rewrite eqb_pairs. cbn [fst snd]. destruct (eqb_spec k' k) as [->|]; [congruence|]. cbn [andb]. symmetry. apply dplus_0_l.
Qed.

Theorem pb_serves : serves bops1 contents1 laws1 bops2 contents2 laws2 pb hash F (fun _ => True) pb_session.
Proof.
  split.
  - intros inst s _ _. cbn [pb rb_seed_times]. split.
    + assert (X := sort_dedup_sorted (map (fun u : K * V * T * R1 => (hash (fst (fst (fst u))), snd (fst u))) (flat_map contents1 (ri_input inst)))). revert X.
      generalize (sort_dedup (map (fun u : K * V * T * R1 => (hash (fst (fst (fst u))), snd (fst u))) (flat_map contents1 (ri_input inst)))) as l.
      induction l as [|[h t] l IH]; intros X; [constructor|]. apply strictly_sorted_cons_inv in X. destruct X as [X1 X2]. cbn [map fst]. constructor; auto. rewrite Forall_map. eapply Forall_impl; [|exact X2]. intros [h' t'] Hlt. cbn [fst]. apply lt_pair in Hlt. destruct Hlt as [Hlt|[<- _]]; [apply lt_le; auto|apply le_refl].
    + intros h t. rewrite sort_dedup_in, in_map_iff. split; intros (u & E1 & E2).
      * injection E1 as <- <-. exists u. auto.
      * destruct E2 as [E2 E3]. exists u. subst. auto.
  - intros inst s changed descs _ _. split; [auto|]. split; intros ? ? ? ?; discriminate.
  - intros inst changed descs cursor keys mn1 mn2 emitted s HSs Hc Hss. cbn [pb rb_next_window]. destruct (nth_error changed cursor) as [h|] eqn:E; [|apply nth_error_None in E; lia].
    exists s, (Datatypes.S cursor). eexists. exists pb_meaning, pb_meaning. split; [reflexivity|]. cbn [w_keys w_input w_output].
    split; [lia|]. split; [|split; [apply pb_sound|split; [apply pb_sound|split; [apply pb_shows|split; [apply pb_shows|]]]]].
    + replace (Datatypes.S cursor - cursor) with 1 by lia. clear -E. revert cursor E. induction changed as [|a l IH]; intros [|c] E; try discriminate; [injection E as ->; auto|cbn [skipn]; apply IH, E].
    + destruct HSs as (E1 & _ & _). split; [auto|]. split; intros ? ? ? ?; auto.
  - intros inst changed descs keys mn1 mn2 emitted s HSs. cbn [pb rb_next_window]. rewrite (proj2 (nth_error_None changed (length changed))) by lia. exists s, (length changed), mn1, mn2. split; auto. 
  - intros inst changed descs cursor keys mn1 mn2 emitted s requests (E1 & X1 & X2) _ _ Hs HF. cbn [pb rb_corrections]. rewrite !cut_ends.
    exists s. eexists. exists pb_meaning. split; [reflexivity|]. split; [exact X2|]. split; [apply pb_sound|]. split.
    + induction HF as [|[[h ins] outs] requests (Hin & C1 & C2 & _ & N1 & N2) HF IH]; [constructor|]. cbn [map List.combine fst snd]. constructor; [apply (pb_corrects h ins outs mn1 mn2); auto|]. apply IH. cbn [map] in Hs. apply strictly_sorted_cons_inv in Hs. tauto.
    + split; [auto|]. split; [exact X1|]. intros ? ? ? ?; auto.
  - intros inst changed descs cursor keys mn1 mn2 emitted s tile d records (-> & X1 & X2) _ _ HA _. cbn [pb rb_emit fst snd]. rewrite (pb_shown mn2 records X2 HA). split; auto.
  - intros inst changed descs keys mn1 mn2 emitted s (-> & _ & _). cbn [pb rb_finish fst snd]. exists ([], []). eexists. split; [reflexivity|]. split; auto.
    induction (List.combine descs emitted) as [|[d e] l IH]; [constructor|]. cbn [map fst snd]. constructor; auto.
    assert (C : consolidated (A:=K*V*T) (concat [consolidate (A:=K*V*T) e])) by (cbn [concat]; rewrite app_nil_r; apply consolidate_consolidated).
    destruct (HB [consolidate (A:=K*V*T) e] d C) as (B1' & B2' & B3'). cbn [concat] in B2'. rewrite app_nil_r in B2'. split; [auto|]. split; [auto|]. rewrite B2'. split; [apply consolidate_weight|].
    apply (consolidate_items (fun x => In (snd x) (map (fun u => snd (fst u)) e))). rewrite Forall_forall. intros x Hx. apply in_map_iff. exists x. auto.
Qed.
End Backend.
