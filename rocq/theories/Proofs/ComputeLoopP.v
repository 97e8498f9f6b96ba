(** The loop of reduce's per-key work (Model/ReduceM.v, [compute_loop]): its invariant, and what it leaves. *)
From Coq Require Import Sorting.Sorted.
From Verif Require Export Proofs.ComputeP.
From Verif Require Import Base.Order.

Section Loop.
Context {K V1 V2 T R1 R2 : Type} {OV1 : Ord V1} {OV2 : Ord V2} {TT : Time T} {D1 : Diff R1} {D2 : Diff R2} {A2 : Abelian R2}.
Notation times l := (map (fun u => snd (fst u)) l).
Notation up1 := (V1 * T * R1)%type. Notation up2 := (V2 * T * R2)%type.
Variable logic : K -> list (V1 * R1) -> list (V2 * R2) -> list (V2 * R2).
Variable upper : list T.
Variable key : K.
Variable F : list (V1 * R1) -> V2 -> R2.
Hypothesis F_nil : forall v, F [] v = dzero.
Hypothesis logic_ok : forall i o, consolidated i -> consolidated o -> i <> [] \/ o <> [] ->
  forall v, dplus (weight (logic key i o) v) (weight o v) = F i v.

Variables LB LI : list up1. Variable LO : list up2. Variable P : list T. Variable held : list T.
Definition seeds := times LB ++ P.
Definition J := joins (times LB ++ P ++ times LI ++ times LO).
Definition seeded (t : T) : Prop := exists sd, In sd seeds /\ tle sd t = true.
Hypothesis held_ok : forall sd, In sd seeds -> exists h, In h held /\ tle h sd = true.

Definition FA (I : list up1) (t : T) (v : V2) : R2 := F (consolidate (A:=V1) (values_at t I)) v.
Lemma FA_ext I I' t t' v : (forall a, acc I a t = acc I' a t') -> FA I t v = FA I' t' v.
Proof. intros H. unfold FA. f_equal. apply consolidate_canonical. intros a. rewrite !weight_values_at. auto. Qed.
Lemma FA_ok I t v i : consolidated i -> (forall a, weight i a = acc I a t) -> FA I t v = F i v.
Proof. intros C H. unfold FA. f_equal. apply consolidated_unique; [apply consolidate_consolidated|exact C|]. intros a. rewrite consolidate_weight, weight_values_at. auto. Qed.

(** times at which the answer is claimed *)
Variable okt : T -> Prop.
Hypothesis okt_down : forall r t, tle r t = true -> okt t -> okt r.
Hypothesis okt_base : forall t, okt t -> seeded t -> (forall p, In p P -> tle p t = false) -> forall v, FA LI t v = acc LO v t.
Hypothesis okt_chain : forall t x, okt t -> In x (times LI ++ times LO) -> ac_less_equal upper x = true -> tle x t = true ->
  forall y, seeded y -> tle y t = true -> le y x -> tle y x = true.

Record ghost := { eb : list up1; rb : list up1; ei : list up1; ri : list up1; eo : list up2; ro : list up2; ec : list T; pr : list up2; vis : list T }.
Notation state := (cstate V1 V2 T R1 R2).
Definition rem (g : ghost) (s : state) : list T := times (rb g) ++ times (ri g) ++ times (ro g) ++ cs_times s ++ cs_synth s.
Definition cov (g : ghost) (s : state) (t : T) : Prop := exists x, In x (rem g s) /\ tle x t = true.
Definition trig (g : ghost) (s : state) (t : T) : Prop := exists y, In y (times (rb g) ++ cs_times s ++ cs_synth s) /\ tle y t = true.
Definition settled (g : ghost) (s : state) (t : T) : Prop := exists r, seeded r /\ tle r t = true /\ Forall (fun y => tle y r = false) (rem g s) /\
  (forall v, acc (ei g) v t = acc (ei g) v r) /\ (forall v, acc (eo g) v t = acc (eo g) v r) /\
  (forall v, acc (eb g) v t = acc (eb g) v r) /\ (forall v, acc (pr g) v t = acc (pr g) v r) /\
  (forall v, FA (ei g ++ eb g) r v = dplus (acc (eo g) v r) (acc (pr g) v r)).
Definition quiet (g : ghost) (t : T) : Prop :=
  (forall v, acc (eb g) v t = dzero) /\ (forall v, acc (pr g) v t = dzero) /\ forall p, In p P -> tle p t = false.
Definition at_index (i : nat) (u : up2) : bool :=
  match last_position (snd (fst u)) (map (fun t => (t, @nil up2)) held) with Some j => i =? j | None => false end.
Definition allots (outs : list (T * list up2)) (l : list up2) : Prop :=
  map fst outs = held /\ forall i t us, nth_error outs i = Some (t, us) -> us = filter (at_index i) l.
Definition curok (c : T -> Prop) (cur ent : list T) : Prop := Forall (stands c ent) cur /\ forall e, In e ent -> exists x, In x cur /\ stands c [e] x.

Record cinv (g : ghost) (s : state) : Prop := {
  ci_b : replays (cs_batch s) (rb g); ci_LB : LB = eb g ++ rb g;
  ci_i : replays (cs_input s) (ri g); ci_LI : LI = ei g ++ ri g;
  ci_o : replays (cs_output s) (ro g); ci_LO : LO = eo g ++ ro g;
  ci_bb : bufok (cov g s) (vh_buffer (cs_batch s)) (eb g);
  ci_bi : bufok (cov g s) (vh_buffer (cs_input s)) (ei g);
  ci_bo : bufok (cov g s) (vh_buffer (cs_output s)) (eo g);
  ci_bp : bufok (cov g s) (cs_produced s) (pr g);
  ci_cur : curok (cov g s) (cs_current s) (ec g);
  ci_times : exists passed, P = passed ++ cs_times s /\ forall p, In p passed -> In p (ec g);
  ci_Ps : StronglySorted le (cs_times s);
  ci_meets : cs_meets s = suffix_meet (cs_times s);
  ci_meet : forall m, cs_meet s = Some m -> Forall (fun y => tle m y = true) (rem g s);
  ci_synth : strictly_sorted (cs_synth s);
  ci_sband : Forall (fun y => ac_less_equal upper y = false /\ seeded y) (cs_synth s);
  ci_J : Forall (fun y => In y J) (rem g s); ci_vJ : Forall (fun y => In y J) (vis g);
  ci_nd : NoDup (vis g); ci_lt : forall e y, In e (vis g) -> In y (rem g s) -> lt e y;
  ci_ent : forall e, In e (times (eb g) ++ times (ei g) ++ times (eo g) ++ times (pr g) ++ ec g) -> In e (vis g);
  ci_ecs : Forall seeded (ec g);
  ci_prs : Forall (fun u => seeded (snd (fst u)) /\ ac_less_equal upper (snd (fst u)) = false) (pr g);
  ci_prc : strictly_sorted (map (fun u => (snd (fst u), fst (fst u))) (pr g)) /\ Forall (fun u => is_zero (snd u) = false) (pr g);
  ci_new : Forall (fun y => ac_less_equal upper y = true /\ seeded y) (cs_new s);
  ci_out : allots (cs_outputs s) (pr g);
  ci_main : forall t, okt t -> (forall y, In y (cs_new s) -> tle y t = false) -> ~ trig g s t -> settled g s t \/ quiet g t
}.

Lemma J_closed a b : In a J -> In b J -> In (join a b) J.
Proof. apply joins_closed. Qed.

Lemma next_ok g s x : cinv g s -> next_time s = Some x -> In x (rem g s) /\ Forall (le x) (rem g s).
Proof.
  intros C. unfold next_time. intros E. pose proof (least_spec [vh_time (cs_batch s); hd_error (cs_times s); vh_time (cs_input s); vh_time (cs_output s); hd_error (cs_synth s)]) as L.
  rewrite E in L. destruct L as [L1 L2].
  rewrite (replays_time _ _ (ci_b _ _ C)), (replays_time _ _ (ci_i _ _ C)), (replays_time _ _ (ci_o _ _ C)) in *.
  assert (HD : forall {V R} (l : list (V * T * R)) y, option_map (fun u => snd (fst u)) (hd_error l) = Some y -> In y (times l)).
  { intros V R [|u l] y H; [discriminate|]. inversion H; subst. simpl; auto. }
  assert (HD' : forall (l : list T) y, hd_error l = Some y -> In y l). { intros [|u l] y H; [discriminate|]. inversion H; subst. simpl; auto. }
  assert (SM : forall {V R} {OV : Ord V} {DR : Diff R} (h : ValueHistory V T R) l, replays h l ->
    (forall y, option_map (fun u => snd (fst u)) (hd_error l) = Some y -> le x y) -> Forall (le x) (times l)).
  { intros V R OV DR h l H Hx. apply rp_sorted in H. destruct H as [|u l H HF]; [constructor|]. simpl. specialize (Hx _ eq_refl).
    constructor; auto. apply Forall_map. eapply Forall_impl; [|exact HF]. intros w Hw. eapply le_trans; eauto. }
  assert (SM' : forall l : list T, StronglySorted le l -> (forall y, hd_error l = Some y -> le x y) -> Forall (le x) l).
  { intros l H Hx. destruct H as [|u l H HF]; [constructor|]. specialize (Hx _ eq_refl).
    constructor; auto. eapply Forall_impl; [|exact HF]. intros w Hw. eapply le_trans; eauto. }
  split.
  - unfold rem. rewrite !in_app_iff. destruct L1 as [L|[L|[L|[L|[L|[]]]]]]; eauto 8.
  - rewrite !Forall_cons_iff in L2. destruct L2 as (L2b & L2t & L2i & L2o & L2s & _).
    unfold rem. rewrite !Forall_app. repeat split.
    + apply (SM _ _ _ _ _ _ (ci_b _ _ C)); auto.
    + apply (SM _ _ _ _ _ _ (ci_i _ _ C)); auto.
    + apply (SM _ _ _ _ _ _ (ci_o _ _ C)); auto.
    + apply SM'; auto. apply (ci_Ps _ _ C).
    + apply SM'; auto. apply strictly_StronglySorted. apply (ci_synth _ _ C).
Qed.
Lemma next_none g s : cinv g s -> next_time s = None -> rem g s = [].
Proof.
  intros C. unfold next_time. intros E. pose proof (least_spec [vh_time (cs_batch s); hd_error (cs_times s); vh_time (cs_input s); vh_time (cs_output s); hd_error (cs_synth s)]) as L.
  rewrite E in L. rewrite !Forall_cons_iff in L. destruct L as (L1 & L2 & L3 & L4 & L5 & _).
  rewrite (replays_time _ _ (ci_b _ _ C)) in L1. rewrite (replays_time _ _ (ci_i _ _ C)) in L3. rewrite (replays_time _ _ (ci_o _ _ C)) in L4.
  unfold rem. destruct (rb g); [|discriminate]. destruct (ri g); [|discriminate]. destruct (ro g); [|discriminate].
  destruct (cs_times s); [|discriminate]. destruct (cs_synth s); [|discriminate]. reflexivity.
Qed.

(** ** The evaluation *)
Lemma evaluate_ok (c : T -> Prop) x bi bb bo (m : option T) prod outs (Ei Eb : list up1) (Eo Pr : list up2) :
  c x -> seeded x -> (forall y, m = Some y -> forall t, c t -> tle y t = true) ->
  bufok c bi Ei -> bufok c bb Eb -> bufok c bo Eo -> bufok c prod Pr -> allots outs Pr ->
  exists prod' outs' us, evaluate logic key x bi bb bo m prod outs = Some (prod', outs') /\
    bufok c prod' (Pr ++ map (fun vd => (fst vd, x, snd vd)) us) /\ allots outs' (Pr ++ map (fun vd => (fst vd, x, snd vd)) us) /\
    consolidated us /\
    forall v, FA (Ei ++ Eb) x v = dplus (acc Eo v x) (acc (Pr ++ map (fun vd => (fst vd, x, snd vd)) us) v x).
Proof.
  intros Cx Sx Hm BI BB BO BP AL. unfold evaluate.
  set (ib := consolidate (A:=V1) (values_at x bi ++ values_at x bb)). set (ob := consolidate (A:=V2) (values_at x bo ++ values_at x prod)).
  assert (Wi : forall a, weight ib a = acc (Ei ++ Eb) a x).
  { intros a. unfold ib. rewrite consolidate_weight, weight_app, !weight_values_at, acc_app, (bo_acc _ _ _ BI), (bo_acc _ _ _ BB); auto. }
  assert (Wo : forall a, weight ob a = dplus (acc Eo a x) (acc Pr a x)).
  { intros a. unfold ob. rewrite consolidate_weight, weight_app, !weight_values_at, (bo_acc _ _ _ BO), (bo_acc _ _ _ BP); auto. }
  assert (Ci : consolidated ib) by apply consolidate_consolidated. assert (Co : consolidated ob) by apply consolidate_consolidated.
  assert (FE : forall v, FA (Ei ++ Eb) x v = F ib v). { intros v. apply FA_ok; auto. }
  assert (NO : (forall v, F ib v = weight ob v) -> exists prod' outs' us, Some (prod, outs) = Some (prod', outs') /\
    bufok c prod' (Pr ++ map (fun vd => (fst vd, x, snd vd)) us) /\ allots outs' (Pr ++ map (fun vd => (fst vd, x, snd vd)) us) /\
    consolidated us /\
    forall v, FA (Ei ++ Eb) x v = dplus (acc Eo v x) (acc (Pr ++ map (fun vd => (fst vd, x, snd vd)) us) v x)).
  { intros H. exists prod, outs, []. cbn [map]. rewrite app_nil_r. split; auto. split; auto. split; auto. split; [split; constructor|].
    intros v. rewrite FE, H, Wo. auto. }
  destruct (negb (is_nil ib) || negb (is_nil ob)) eqn:E.
  - assert (NE : ib <> [] \/ ob <> []). { apply orb_true_iff in E. destruct E as [E|E]; [left|right]; intros N; rewrite N in E; discriminate. }
    pose proof (logic_ok ib ob Ci Co NE) as LK. set (ub := consolidate (A:=V2) (logic key ib ob)).
    assert (Wu : forall v, dplus (weight ub v) (weight ob v) = F ib v). { intros v. unfold ub. rewrite consolidate_weight. apply LK. }
    destruct (is_nil ub) eqn:EU; cbn [negb].
    + apply NO. intros v. rewrite <- Wu. destruct ub; [|discriminate]. rewrite weight_nil, dplus_0_l. auto.
    + destruct AL as [AL1 AL2]. destruct (last_position_some x outs) as [idx Hidx].
      { rewrite AL1. destruct Sx as (sd & H1 & H2). destruct (held_ok _ H1) as (h & Hh & L). exists h. split; auto. eapply tle_trans; eauto. }
      rewrite Hidx. set (us := map (fun vd => (fst vd, x, snd vd)) ub). eexists _, _, ub. split; [reflexivity|]. fold us.
      assert (BP' : bufok c (prod ++ us) (Pr ++ us)) by (apply bufok_app; auto).
      split; [destruct m as [m|]; apply bufok_consolidate; auto; apply bufok_adv; eauto|]. split.
      { split; [rewrite push_output_fst; auto|]. intros i t l Hn. rewrite push_output_nth in Hn. destruct (nth_error outs i) as [[t' l']|] eqn:En; [|discriminate].
        specialize (AL2 _ _ _ En). rewrite filter_app. assert (FI : forall b, (forall u, In u us -> at_index i u = b) -> filter (at_index i) us = if b then us else []).
        { intros b. generalize us. intros l0. induction l0 as [|u l0 IH]; intros H; [destruct b; auto|]. cbn [filter]. rewrite (H u) by (simpl; auto).
          rewrite IH by (intros; apply H; simpl; auto). destruct b; auto. }
        assert (AI : forall u, In u us -> at_index i u = (i =? idx)).
        { intros u Hu. unfold us in Hu. apply in_map_iff in Hu. destruct Hu as (vd & <- & _). unfold at_index. cbn [fst snd].
          rewrite (last_position_fst x _ outs), Hidx; auto. rewrite map_map. cbn. rewrite map_id. auto. }
        rewrite (FI _ AI). cbn [option_map fst snd] in Hn. destruct (i =? idx); inversion Hn; subst; rewrite ?app_nil_r; auto. }
      split; [apply consolidate_consolidated|].
      intros v. rewrite FE, <- Wu, Wo, acc_app. unfold us. rewrite acc_at by apply tle_refl. rewrite dplus_comm, dplus_assoc. auto.
  - apply orb_false_iff in E. destruct E as [E1 E2]. apply negb_false_iff in E1, E2. apply NO. intros v.
    destruct ib; [|discriminate]. destruct ob; [|discriminate]. rewrite F_nil. auto.
Qed.

(** ** What happens at one time *)
Definition branch (x : T) (s : state) (input : ValueHistory V1 T R1) (output : ValueHistory V2 T R2) (batch : ValueHistory V1 T R1) (synth current : list T) (interesting : bool) :=
    (if negb (ac_less_equal upper x) then
       let temporary := joins_with x (buffer_times batch) ++ joins_with x current in
       let input := if interesting then advance_if (cs_meet s) input else input in
       let output := if interesting then advance_if (cs_meet s) output else output in
       let temporary := if interesting then temporary ++ joins_with x (buffer_times input) ++ joins_with x (buffer_times output) ++
                                            joins_with x (map (fun u => snd (fst u)) (cs_produced s))
                        else temporary in
       let temporary := sort_dedup temporary in
       let later := filter (ac_less_equal upper) temporary in
       let now := filter (fun t => negb (ac_less_equal upper t)) temporary in
       let synth := if is_nil now then synth else dedup (osort (synth ++ now)) in
       ' (produced, outputs) <-
         (if interesting then evaluate logic key x (vh_buffer input) (vh_buffer batch) (vh_buffer output) (cs_meet s) (cs_produced s) (cs_outputs s)
          else Some (cs_produced s, cs_outputs s));
       Some (input, output, synth, produced, outputs, cs_new s ++ later)
     else
       Some (input, output, synth, cs_produced s, cs_outputs s, if interesting then cs_new s ++ [x] else cs_new s)).

Lemma stands_J (c : T -> Prop) ts b x : c x -> In x J -> (forall e, In e ts -> In e J) -> stands c ts b -> In (join b x) J.
Proof. intros Cx Hx H (e & He & _ & E). rewrite (E _ Cx). apply J_closed; auto. Qed.
Lemma seeded_mono x y : tle x y = true -> seeded x -> seeded y.
Proof. intros L (sd & H1 & H2). exists sd. split; auto. eapply tle_trans; eauto. Qed.
Lemma stands_seeded (c : T -> Prop) ts b : (forall e, In e ts -> seeded e) -> stands c ts b -> seeded b.
Proof. intros H (e & He & L & _). eapply seeded_mono; eauto. Qed.
Lemma buffer_stands {V R} {OV : Ord V} {DR : Diff R} (c : T -> Prop) (h : ValueHistory V T R) ent b : bufok c (vh_buffer h) ent -> In b (buffer_times h) -> stands c (times ent) b.
Proof. intros [_ B] Hb. unfold buffer_times in Hb. apply in_map_iff in Hb. destruct Hb as (u & <- & Hu). rewrite Forall_forall in B. apply (B u Hu). Qed.

Lemma branch_ok g s x hi ho batch cur synth0 int Ei Eb Eo Ec :
  cinv g s -> cov g s x -> In x J ->
  bufok (cov g s) (vh_buffer hi) Ei -> bufok (cov g s) (vh_buffer ho) Eo -> bufok (cov g s) (vh_buffer batch) Eb -> curok (cov g s) cur Ec ->
  (forall e, In e (times Eb ++ times Ei ++ times Eo ++ times (pr g) ++ Ec) -> In e (vis g ++ [x])) ->
  (forall e, In e (vis g ++ [x]) -> le e x) ->
  (forall e, In e (times Eb ++ Ec) -> seeded e) ->
  (int = true -> seeded x) ->
  (int = false -> (forall b, In b (buffer_times batch ++ cur) -> tle b x = false) /\ In x (times LI ++ times LO)) ->
  strictly_sorted synth0 ->
  exists input output synth produced outputs later us,
    branch x s hi ho batch synth0 cur int = Some (input, output, synth, produced, outputs, cs_new s ++ later) /\
    (input = hi \/ input = advance_if (cs_meet s) hi) /\ (output = ho \/ output = advance_if (cs_meet s) ho) /\
    bufok (cov g s) (vh_buffer input) Ei /\ bufok (cov g s) (vh_buffer output) Eo /\
    bufok (cov g s) produced (pr g ++ map (fun vd => (fst vd, x, snd vd)) us) /\ allots outputs (pr g ++ map (fun vd => (fst vd, x, snd vd)) us) /\
    consolidated us /\ (us <> [] -> seeded x /\ ac_less_equal upper x = false) /\
    strictly_sorted synth /\ (forall y, In y synth0 -> In y synth) /\
    (forall y, In y synth -> In y synth0 \/ (lt x y /\ tle x y = true /\ In y J /\ ac_less_equal upper y = false /\ seeded y)) /\
    Forall (fun y => ac_less_equal upper y = true /\ seeded y) later /\
    (forall t, tle x t = true -> okt t -> (forall y, In y (cs_new s ++ later) -> tle y t = false) -> (forall y, In y synth -> tle y t = false) ->
      (int = true /\ (forall v, acc Ei v t = acc Ei v x) /\ (forall v, acc Eo v t = acc Eo v x) /\ (forall v, acc Eb v t = acc Eb v x) /\
       (forall v, acc (pr g ++ map (fun vd => (fst vd, x, snd vd)) us) v t = acc (pr g ++ map (fun vd => (fst vd, x, snd vd)) us) v x) /\
       (forall v, FA (Ei ++ Eb) x v = dplus (acc Eo v x) (acc (pr g ++ map (fun vd => (fst vd, x, snd vd)) us) v x)))
      \/ (int = false /\ us = [] /\ forall b, In b (buffer_times batch ++ cur) -> tle b t = false)).
Proof.
  intros C Cx HxJ BI BO BB CU HE HLE HS HI HN HSy. unfold branch. cbv zeta.
  assert (HJ : forall e, In e (vis g ++ [x]) -> In e J).
  { intros e He. apply in_app_iff in He. destruct He as [He|[<-|[]]]; auto. pose proof (ci_vJ _ _ C) as H. rewrite Forall_forall in H. auto. }
  assert (Hm : forall m, cs_meet s = Some m -> forall t, cov g s t -> tle m t = true).
  { intros m E t (y & Hy & L). pose proof (ci_meet _ _ C _ E) as H. rewrite Forall_forall in H. eapply tle_trans; [apply H; exact Hy|exact L]. }
  assert (ES : forall t, tle x t = true -> cov g s t). { intros t L. destruct Cx as (y & Hy & L'). exists y. split; auto. eapply tle_trans; eauto. }
  destruct (ac_less_equal upper x) eqn:EU; cbn [negb].
  - (* beyond the upper frontier *)
    exists hi, ho, synth0, (cs_produced s), (cs_outputs s), (if int then [x] else []), []. cbn [map]. rewrite app_nil_r.
    split; [destruct int; rewrite ?app_nil_r; auto|]. do 6 (split; [auto using (ci_bp _ _ C), (ci_out _ _ C)|]).
    split; [split; constructor|]. split; [congruence|]. do 2 (split; [auto|]). split; [auto|]. split.
    { destruct int; constructor; auto. }
    intros t L Ot Hnew Hsy. destruct int.
    + specialize (Hnew x). rewrite in_app_iff in Hnew. rewrite Hnew in L; simpl; auto. discriminate.
    + right. split; auto. split; auto. destruct (HN eq_refl) as [HN1 HN2]. intros b Hb. destruct (tle b t) eqn:Lb; auto.
      exfalso. assert (St : stands (cov g s) (times Eb ++ Ec) b).
      { apply in_app_iff in Hb. destruct Hb as [Hb|Hb].
        - eapply stands_mono; [| |eapply (buffer_stands _ _ _ _ BB); exact Hb]; auto. intros; apply in_app_iff; auto.
        - destruct CU as [CU _]. rewrite Forall_forall in CU. eapply stands_mono; [| |apply CU; exact Hb]; auto. intros; apply in_app_iff; auto. }
      destruct St as (e & He & _ & E). assert (Hv : In e (vis g ++ [x])).
      { apply HE. rewrite !in_app_iff in *. tauto. }
      pose proof (E _ Cx) as Ejoin. assert (Let : tle e t = true).
      { apply tle_trans with (join b x); [rewrite Ejoin; apply join_ub_l|apply join_lub; auto]. }
      assert (Lx : tle e x = true). { apply (okt_chain t x); auto. }
      specialize (E _ Cx). apply join_eq_r in Lx. rewrite Lx in E. apply join_eq_r in E. rewrite (HN1 _ Hb) in E. discriminate.
  - (* within it *)
    set (hi' := if int then advance_if (cs_meet s) hi else hi). set (ho' := if int then advance_if (cs_meet s) ho else ho).
    assert (BI' : bufok (cov g s) (vh_buffer hi') Ei). { unfold hi'. destruct int; auto. apply bufok_advance; auto. }
    assert (BO' : bufok (cov g s) (vh_buffer ho') Eo). { unfold ho'. destruct int; auto. apply bufok_advance; auto. }
    set (tmp := if int then (joins_with x (buffer_times batch) ++ joins_with x cur) ++ joins_with x (buffer_times hi') ++ joins_with x (buffer_times ho') ++
                  joins_with x (times (cs_produced s)) else joins_with x (buffer_times batch) ++ joins_with x cur).
    set (bts := buffer_times batch ++ cur ++ if int then buffer_times hi' ++ buffer_times ho' ++ times (cs_produced s) else []).
    assert (Tin : forall y, In y tmp <-> exists b, In b bts /\ tle b x = false /\ y = join b x).
    { intros y. assert (JA : forall l1 l2, joins_with x (l1 ++ l2) = joins_with x l1 ++ joins_with x l2) by (intros; unfold joins_with; rewrite filter_app, map_app; auto).
      rewrite <- joins_with_in. unfold tmp, bts. rewrite !JA. destruct int; rewrite ?JA, ?in_app_iff; simpl; tauto. }
    assert (Bst : forall b, In b bts -> stands (cov g s) (vis g ++ [x]) b).
    { intros b Hb. unfold bts in Hb. rewrite !in_app_iff in Hb. destruct Hb as [Hb|[Hb|Hb]].
      - eapply stands_mono; [| |eapply (buffer_stands _ _ _ _ BB); exact Hb]; auto. intros e He; apply HE. rewrite !in_app_iff; auto.
      - destruct CU as [CU _]. rewrite Forall_forall in CU. eapply stands_mono; [| |apply CU; exact Hb]; auto. intros e He; apply HE. rewrite !in_app_iff; auto.
      - destruct int; [|destruct Hb]. rewrite !in_app_iff in Hb. destruct Hb as [Hb|[Hb|Hb]].
        + eapply stands_mono; [| |eapply (buffer_stands _ _ _ _ BI'); exact Hb]; auto. intros e He; apply HE. rewrite !in_app_iff; auto.
        + eapply stands_mono; [| |eapply (buffer_stands _ _ _ _ BO'); exact Hb]; auto. intros e He; apply HE. rewrite !in_app_iff; auto.
        + apply in_map_iff in Hb. destruct Hb as (u & <- & Hu). pose proof (bo_stands _ _ _ (ci_bp _ _ C)) as H. rewrite Forall_forall in H.
          eapply stands_mono; [| |apply (H u Hu)]; auto. intros e He; apply HE. rewrite !in_app_iff; auto. }
    assert (Tok : forall y, In y tmp -> lt x y /\ tle x y = true /\ In y J /\ seeded y).
    { intros y Hy. pose proof (proj1 (Tin y) Hy) as (b & Hb & N & ->).
      assert (G : In (join b x) (joins_with x bts)) by (apply joins_with_in; eauto). apply joins_with_gt in G. destruct G as [G1 G2].
      split; auto. split; auto. split; [eapply stands_J; eauto|].
      destruct int eqn:Ei'; [eapply seeded_mono; [apply join_ub_r|auto]|]. eapply seeded_mono; [apply join_ub_l|].
      unfold bts in Hb. rewrite app_nil_r, in_app_iff in Hb. destruct Hb as [Hb|Hb].
      - eapply (stands_seeded _ (times Eb)); [|eapply (buffer_stands _ _ _ _ BB); exact Hb]. intros; apply HS, in_app_iff; auto.
      - destruct CU as [CU _]. rewrite Forall_forall in CU. eapply (stands_seeded _ Ec); [|apply CU; exact Hb]. intros; apply HS, in_app_iff; auto. }
    set (td := sort_dedup tmp). set (later := filter (ac_less_equal upper) td). set (now := filter (fun t => negb (ac_less_equal upper t)) td).
    set (synth := if is_nil now then synth0 else dedup (osort (synth0 ++ now))).
    assert (Nin : forall y, In y now <-> In y tmp /\ ac_less_equal upper y = false). { intros y. unfold now, td. rewrite filter_In, sort_dedup_in, negb_true_iff. tauto. }
    assert (Lin : forall y, In y later <-> In y tmp /\ ac_less_equal upper y = true). { intros y. unfold later, td. rewrite filter_In, sort_dedup_in. tauto. }
    assert (Sin : forall y, In y synth <-> In y synth0 \/ In y now).
    { intros y. unfold synth. destruct now eqn:En; cbn [is_nil]; [simpl; tauto|]. rewrite dedup_osort_in, in_app_iff. tauto. }
    assert (Sso : strictly_sorted synth). { unfold synth. destruct (is_nil now); auto. apply dedup_osort_sorted. }
    assert (NOT : forall t, tle x t = true -> (forall y, In y (cs_new s ++ later) -> tle y t = false) -> (forall y, In y synth -> tle y t = false) ->
      forall b, In b bts -> tle b t = true -> tle b x = true).
    { intros t L Hnew Hsy b Hb Lb. destruct (tle b x) eqn:N; auto. exfalso.
      assert (Hy : In (join b x) tmp) by (apply Tin; eauto). assert (Ly : tle (join b x) t = true) by (apply join_lub; auto).
      destruct (ac_less_equal upper (join b x)) eqn:Eu.
      - rewrite (Hnew (join b x)) in Ly; [discriminate|]. apply in_app_iff. right. apply Lin; auto.
      - rewrite (Hsy (join b x)) in Ly; [discriminate|]. apply Sin. right. apply Nin; auto. }
    assert (EV : exists produced outputs us,
       (if int then evaluate logic key x (vh_buffer hi') (vh_buffer batch) (vh_buffer ho') (cs_meet s) (cs_produced s) (cs_outputs s) else Some (cs_produced s, cs_outputs s)) = Some (produced, outputs) /\
       bufok (cov g s) produced (pr g ++ map (fun vd => (fst vd, x, snd vd)) us) /\ allots outputs (pr g ++ map (fun vd => (fst vd, x, snd vd)) us) /\
       consolidated us /\ (int = false -> us = []) /\
       (int = true -> forall v, FA (Ei ++ Eb) x v = dplus (acc Eo v x) (acc (pr g ++ map (fun vd => (fst vd, x, snd vd)) us) v x))).
    { destruct int.
      - destruct (evaluate_ok (cov g s) x (vh_buffer hi') (vh_buffer batch) (vh_buffer ho') (cs_meet s) (cs_produced s) (cs_outputs s) Ei Eb Eo (pr g) Cx (HI eq_refl) Hm BI' BB BO' (ci_bp _ _ C) (ci_out _ _ C))
          as (p' & o' & us & E1 & E2 & E3 & E4 & E5). exists p', o', us. do 4 (split; [assumption|]). split; [discriminate|auto].
      - exists (cs_produced s), (cs_outputs s), []. cbn [map]. rewrite app_nil_r. split; auto. split; [apply (ci_bp _ _ C)|]. split; [apply (ci_out _ _ C)|].
        split; [split; constructor|]. split; [auto|discriminate]. }
    destruct EV as (produced & outputs & us & E1 & E2 & E3 & E4 & E5 & E6).
    rewrite E1. exists hi', ho', synth, produced, outputs, later, us. split; [reflexivity|].
    split; [unfold hi'; destruct int; auto|]. split; [unfold ho'; destruct int; auto|]. do 5 (split; [auto|]). split.
    { intros Hus. split; auto. apply HI. destruct int; auto. }
    split; auto. split; [intros y Hy; apply Sin; auto|]. split.
    { intros y Hy. apply Sin in Hy. destruct Hy as [Hy|Hy]; auto. apply Nin in Hy. destruct Hy as [Hy Eu]. right. destruct (Tok _ Hy) as (? & ? & ? & ?). auto. }
    split. { apply Forall_forall. intros y Hy. apply Lin in Hy. destruct Hy as [Hy Eu]. destruct (Tok _ Hy) as (? & ? & ? & ?). auto. }
    intros t L Ot Hnew Hsy. specialize (NOT t L Hnew Hsy). destruct int.
    + left. split; auto. pose proof (ES _ L) as Ct.
      assert (G : forall {V R} {OV : Ord V} {DR : Diff R} (buf ent : list (V * T * R)), bufok (cov g s) buf ent -> (forall u, In u buf -> In (snd (fst u)) bts) -> forall v, acc ent v t = acc ent v x).
      { intros V R OV DR buf ent [B _] Hb v. rewrite <- (B v t Ct), <- (B v x Cx). apply acc_between; auto. }
      assert (BT : forall {V R} (h : ValueHistory V T R) u, In u (vh_buffer h) -> In (snd (fst u)) (buffer_times h)).
      { intros V R h u Hu. unfold buffer_times. apply (in_map (fun u : V * T * R => snd (fst u))); auto. }
      split; [eapply G; [exact BI'|]; intros u Hu; unfold bts; rewrite !in_app_iff; pose proof (BT _ _ _ _ Hu); tauto|].
      split; [eapply G; [exact BO'|]; intros u Hu; unfold bts; rewrite !in_app_iff; pose proof (BT _ _ _ _ Hu); tauto|].
      split; [eapply G; [exact BB|]; intros u Hu; unfold bts; rewrite !in_app_iff; pose proof (BT _ _ _ _ Hu); tauto|].
      split; [|auto]. intros v. rewrite !acc_app, !acc_at by (auto; apply tle_refl). f_equal.
      eapply (G _ _ _ _ _ _ (ci_bp _ _ C)). intros u Hu. unfold bts. rewrite !in_app_iff. right. right. right. right.
      apply (in_map (fun u : up2 => snd (fst u))); auto.
    + right. split; auto. split; auto. intros b Hb. destruct (tle b t) eqn:Lb; auto. destruct (HN eq_refl) as [HN1 _].
      rewrite <- (HN1 b Hb). symmetry. apply NOT; auto. unfold bts. rewrite app_nil_r. auto.
Qed.

Lemma existsb_false {A} (f : A -> bool) l : existsb f l = false -> forall x, In x l -> f x = false.
Proof. intros H x Hx. destruct (f x) eqn:E; auto. assert (existsb f l = true) by (apply existsb_exists; eauto). congruence. Qed.
Lemma curok_weaken (c c' : T -> Prop) cur ent : (forall t, c' t -> c t) -> curok c cur ent -> curok c' cur ent.
Proof.
  intros H [A B]. split.
  - eapply Forall_impl; [|exact A]. intros u; apply stands_mono; auto.
  - intros e He. destruct (B e He) as (y & Hy & S). exists y. split; auto. eapply stands_mono; [| |exact S]; auto.
Qed.
Lemma curok_in (c : T -> Prop) cur cur' ent : (forall y, In y cur <-> In y cur') -> curok c cur ent -> curok c cur' ent.
Proof.
  intros H [A B]. rewrite Forall_forall in A. split.
  - apply Forall_forall. intros y Hy. apply A, H; auto.
  - intros e He. destruct (B e He) as (y & Hy & S). exists y. split; auto. apply H; auto.
Qed.
Lemma curok_app (c : T -> Prop) cur ent l : curok c cur ent -> curok c (cur ++ l) (ent ++ l).
Proof.
  intros [A B]. split.
  - apply Forall_app. split.
    + eapply Forall_impl; [|exact A]. intros u; apply stands_mono; auto. intros; apply in_app_iff; auto.
    + apply Forall_forall. intros y Hy. apply stands_self, in_app_iff; auto.
  - intros e He. apply in_app_iff in He. destruct He as [He|He].
    + destruct (B e He) as (y & Hy & S). exists y. split; auto. apply in_app_iff; auto.
    + exists e. split; [apply in_app_iff; auto|]. apply stands_self; simpl; auto.
Qed.
Lemma curok_adv (c : T -> Prop) cur ent m : (forall t, c t -> tle m t = true) -> curok c cur ent -> curok c (map (fun t => join t m) cur) ent.
Proof.
  intros H [A B]. split.
  - apply Forall_forall. intros y Hy. apply in_map_iff in Hy. destruct Hy as (z & <- & Hz). apply stands_adv; auto. rewrite Forall_forall in A; auto.
  - intros e He. destruct (B e He) as (y & Hy & S). exists (join y m). split; [apply (in_map (fun t => join t m)); auto|]. apply stands_adv; auto.
Qed.
Lemma replays_advance_if {V R} {OV : Ord V} {DR : Diff R} m (h : ValueHistory V T R) rest : replays h rest -> replays (advance_if m h) rest.
Proof. intros H. destruct m; auto. apply replays_advance; auto. Qed.

Lemma step_ok g s x : cinv g s -> next_time s = Some x ->
  exists g' s', compute_at logic upper key x s = Some s' /\ cinv g' s' /\ vis g' = vis g ++ [x].
Proof.
  intros C Hx. destruct (next_ok _ _ _ C Hx) as [Xin Xle].
  pose proof Xle as Xle'. unfold rem in Xle'. rewrite !Forall_app in Xle'. destruct Xle' as (Lb & Li & Lo & Lt & Ls).
  rewrite Forall_map in Lb, Li, Lo.
  destruct (hist_step _ _ x (ci_b _ _ C) Lb) as (nb & rb' & hb & Eb1 & Eb2 & Eb3 & Eb4 & Eb5 & Eb6).
  destruct (hist_step _ _ x (ci_i _ _ C) Li) as (ni & ri' & hi & Ei1 & Ei2 & Ei3 & Ei4 & Ei5 & Ei6).
  destruct (hist_step _ _ x (ci_o _ _ C) Lo) as (no & ro' & ho & Eo1 & Eo2 & Eo3 & Eo4 & Eo5 & Eo6).
  destruct (list_step x _ (strictly_StronglySorted _ (ci_synth _ _ C)) Ls) as (Ks0 & Ks1 & Ks2).
  destruct (list_step x _ (ci_Ps _ _ C) Lt) as (Kt0 & Kt1 & Kt2).
  set (k := leading x (cs_synth s)) in *. set (j := leading x (cs_times s)) in *.
  set (ns := firstn k (cs_synth s)) in *. set (nt := firstn j (cs_times s)) in *.
  set (synth0 := skipn k (cs_synth s)) in *. set (times' := skipn j (cs_times s)) in *.
  assert (Es : cs_synth s = ns ++ synth0) by (symmetry; apply firstn_skipn). assert (Et : cs_times s = nt ++ times') by (symmetry; apply firstn_skipn).
  set (batch := if negb (is_nil nb) then advance_if (cs_meet s) hb else hb).
  set (cur := cs_current s ++ ns ++ nt).
  set (int := negb (is_nil nb) || (0 <? k) || (0 <? j) || existsb (fun t => tle t x) (buffer_times batch) || existsb (fun t => tle t x) cur).
  assert (Cx : cov g s x) by (exists x; split; [auto|apply tle_refl]).
  assert (Hm : forall m, cs_meet s = Some m -> forall t, cov g s t -> tle m t = true).
  { intros m E t (y & Hy & L). pose proof (ci_meet _ _ C _ E) as H. rewrite Forall_forall in H. eapply tle_trans; [apply H; exact Hy|exact L]. }
  assert (HxJ : In x J). { pose proof (ci_J _ _ C) as H. rewrite Forall_forall in H. auto. }
  assert (BI : bufok (cov g s) (vh_buffer hi) (ei g ++ ni)) by (rewrite Ei4; apply bufok_app, (ci_bi _ _ C)).
  assert (BO : bufok (cov g s) (vh_buffer ho) (eo g ++ no)) by (rewrite Eo4; apply bufok_app, (ci_bo _ _ C)).
  assert (BB0 : bufok (cov g s) (vh_buffer hb) (eb g ++ nb)) by (rewrite Eb4; apply bufok_app, (ci_bb _ _ C)).
  assert (BB : bufok (cov g s) (vh_buffer batch) (eb g ++ nb)). { unfold batch. destruct (negb _); auto. apply bufok_advance; auto. }
  assert (RB : replays batch rb'). { unfold batch. destruct (negb _); auto. apply replays_advance_if; auto. }
  assert (CU : curok (cov g s) cur (ec g ++ ns ++ nt)) by (apply curok_app, (ci_cur _ _ C)).
  assert (SB : forall e, In e (times (eb g ++ nb)) -> seeded e).
  { intros e He. exists e. split; [|apply tle_refl]. unfold seeds. apply in_app_iff. left. rewrite (ci_LB _ _ C), Eb2. rewrite !map_app, !in_app_iff in *. tauto. }
  assert (PT : forall e, In e (cs_times s) -> In e P). { intros e He. destruct (ci_times _ _ C) as (passed & -> & _). apply in_app_iff; auto. }
  assert (SC : forall e, In e (ec g ++ ns ++ nt) -> seeded e).
  { intros e He. rewrite !in_app_iff in He. destruct He as [He|[He|He]].
    - pose proof (ci_ecs _ _ C) as H. rewrite Forall_forall in H. auto.
    - pose proof (ci_sband _ _ C) as H. rewrite Forall_forall in H. apply (H e). rewrite Es. apply in_app_iff; auto.
    - exists e. split; [|apply tle_refl]. apply in_app_iff. right. apply PT. rewrite Et. apply in_app_iff; auto. }
  assert (AE : forall e, In e (times (eb g ++ nb) ++ times (ei g ++ ni) ++ times (eo g ++ no) ++ times (pr g) ++ ec g ++ ns ++ nt) -> In e (vis g ++ [x])).
  { assert (Q : forall {V R} (l : list (V * T * R)) e, Forall (fun u => snd (fst u) = x) l -> In e (times l) -> e = x).
    { intros V R l e H He. apply in_map_iff in He. destruct He as (u & <- & Hu). rewrite Forall_forall in H. auto. }
    assert (Q' : forall l e, Forall (fun y : T => y = x) l -> In e l -> e = x). { intros l e H He. rewrite Forall_forall in H. auto. }
    intros e He. pose proof (ci_ent _ _ C e) as VE. rewrite !map_app, !in_app_iff in *. cbn [In].
    assert (D : In e (vis g) \/ e = x); [|destruct D as [?| ->]; auto].
    destruct He as [[He|He]|[[He|He]|[[He|He]|[He|[He|[He|He]]]]]]; try (left; tauto); right; eauto. }
  assert (VL : forall e, In e (vis g ++ [x]) -> le e x).
  { intros e He. apply in_app_iff in He. destruct He as [He|[<-|[]]]; [|apply le_refl]. apply lt_le. apply (ci_lt _ _ C); auto. }
  assert (HI : int = true -> seeded x).
  { unfold int. rewrite !orb_true_iff. intros [[[[H|H]|H]|H]|H].
    - apply SB. destruct nb as [|u nb]; [discriminate|]. inversion Eb5; subst. rewrite map_app, in_app_iff. right. simpl; auto.
    - apply SC. fold k in Ks0. rewrite Ks0 in H. destruct ns as [|y ns']; [discriminate|]. inversion Ks1; subst. rewrite !in_app_iff. simpl; auto.
    - apply SC. rewrite Kt0 in H. destruct nt as [|y nt']; [discriminate|]. inversion Kt1; subst. rewrite !in_app_iff. simpl; auto.
    - apply existsb_exists in H. destruct H as (b & Hb & L). eapply seeded_mono; [exact L|]. eapply stands_seeded; [|eapply (buffer_stands _ _ _ _ BB); exact Hb]; auto.
    - apply existsb_exists in H. destruct H as (b & Hb & L). eapply seeded_mono; [exact L|]. destruct CU as [CU _]. rewrite Forall_forall in CU.
      eapply stands_seeded; [|apply CU; exact Hb]; auto. }
  assert (NN : int = false -> nb = [] /\ ns = [] /\ nt = [] /\ forall b, In b (buffer_times batch ++ cur) -> tle b x = false).
  { unfold int. rewrite !orb_false_iff, Ks0, Kt0. intros [[[[H1 H2] H3] H4] H5].
    split; [destruct nb; [auto|discriminate]|]. split; [destruct ns; [auto|discriminate]|]. split; [destruct nt; [auto|discriminate]|].
    intros b Hb. apply in_app_iff in Hb. destruct Hb as [Hb|Hb]; [eapply existsb_false in H4; eauto|eapply existsb_false in H5; eauto]. }
  assert (HN : int = false -> (forall b, In b (buffer_times batch ++ cur) -> tle b x = false) /\ In x (times LI ++ times LO)).
  { intros H. destruct (NN H) as (N1 & N2 & N3 & N4). split; auto. rewrite (ci_LI _ _ C), (ci_LO _ _ C), !map_app, !in_app_iff.
    unfold rem in Xin. rewrite !in_app_iff in Xin. destruct Xin as [X|[X|[X|[X|X]]]]; auto; exfalso.
    - rewrite Eb2, N1 in X. apply in_map_iff in X. destruct X as (u & E & Hu). cbn in Hu. rewrite Forall_forall in Eb6. specialize (Eb6 _ Hu). rewrite E in Eb6. revert Eb6; apply lt_irrefl.
    - rewrite Et, N3 in X. cbn in X. rewrite Forall_forall in Kt2. specialize (Kt2 _ X). revert Kt2; apply lt_irrefl.
    - rewrite Es, N2 in X. cbn in X. rewrite Forall_forall in Ks2. specialize (Ks2 _ X). revert Ks2; apply lt_irrefl. }
  assert (Sy0 : strictly_sorted synth0). { pose proof (ci_synth _ _ C) as H. rewrite Es in H. apply strictly_sorted_app in H. tauto. }
  destruct (branch_ok g s x hi ho batch cur synth0 int (ei g ++ ni) (eb g ++ nb) (eo g ++ no) (ec g ++ ns ++ nt) C Cx HxJ BI BO BB CU AE VL) as
    (input & output & synth & produced & outputs & later & us & EQ & Hin & Hout & BI' & BO' & BP' & AL' & CO & HU & Sys & Sy1 & Sy2 & HL & MAIN); auto.
  { intros e He. apply in_app_iff in He. destruct He; auto. }
  set (us' := map (fun vd => (fst vd, x, snd vd)) us) in *.
  set (m := update_meet (fold_left (fun m t => update_meet m (Some t)) synth (update_meet (update_meet (update_meet None (vh_meet batch)) (vh_meet input)) (vh_meet output))) (hd_error (skipn j (cs_meets s)))).
  set (g' := {| eb := eb g ++ nb; rb := rb'; ei := ei g ++ ni; ri := ri'; eo := eo g ++ no; ro := ro'; ec := ec g ++ ns ++ nt; pr := pr g ++ us'; vis := vis g ++ [x] |}).
  set (s' := {| cs_batch := batch; cs_input := input; cs_output := output; cs_times := times'; cs_meets := skipn j (cs_meets s); cs_synth := synth;
          cs_current := sort_dedup (match m with Some m => map (fun t => join t m) cur | None => cur end); cs_meet := m; cs_produced := produced; cs_outputs := outputs; cs_new := cs_new s ++ later |}).
  exists g', s'. split.
  { unfold compute_at. rewrite Ei1, Eo1, Eb1. unfold branch in EQ. cbv zeta in EQ |- *. fold k j synth0 times' ns nt. fold cur. fold batch. fold int. rewrite EQ. reflexivity. }
  assert (RI : replays input ri') by (destruct Hin as [-> | ->]; [auto|apply replays_advance_if; auto]).
  assert (RO : replays output ro') by (destruct Hout as [-> | ->]; [auto|apply replays_advance_if; auto]).
  assert (REM : forall y, In y (rem g' s') -> (In y (rem g s) /\ lt x y) \/ (In y synth /\ lt x y /\ tle x y = true /\ In y J /\ ac_less_equal upper y = false /\ seeded y)).
  { intros y Hy. unfold rem in *. cbn [g' s' rb ri ro cs_times cs_synth] in Hy. rewrite !in_app_iff in Hy. rewrite Eb2, Ei2, Eo2, Es, Et, !map_app, !in_app_iff.
    destruct Hy as [Hy|[Hy|[Hy|[Hy|Hy]]]].
    - left. split; [tauto|]. apply in_map_iff in Hy. destruct Hy as (u & <- & Hu). rewrite Forall_forall in Eb6. auto.
    - left. split; [tauto|]. apply in_map_iff in Hy. destruct Hy as (u & <- & Hu). rewrite Forall_forall in Ei6. auto.
    - left. split; [tauto|]. apply in_map_iff in Hy. destruct Hy as (u & <- & Hu). rewrite Forall_forall in Eo6. auto.
    - left. split; [tauto|]. rewrite Forall_forall in Kt2. auto.
    - destruct (Sy2 _ Hy) as [Hy'|Hy']; [left|right; auto]. split; [tauto|]. rewrite Forall_forall in Ks2. auto. }
  assert (COV : forall t, cov g' s' t -> cov g s t).
  { intros t (y & Hy & L). destruct (REM _ Hy) as [[H _]|(_ & _ & H & _)]; [exists y; auto|]. exists x. split; auto. eapply tle_trans; eauto. }
  assert (RLT : forall y, In y (rem g' s') -> lt x y). { intros y Hy. destruct (REM _ Hy) as [[_ H]|(_ & H & _)]; auto. }
  assert (RNL : forall y, In y (rem g' s') -> forall r, Forall (fun z => tle z r = false) (rem g s) -> tle y r = false).
  { intros y Hy r H. rewrite Forall_forall in H. destruct (REM _ Hy) as [[H1 _]|(_ & _ & H1 & _)]; auto.
    destruct (tle y r) eqn:L; auto. rewrite <- (H x Xin). symmetry. eapply tle_trans; eauto. }
  assert (MB : forall m', m = Some m' -> Forall (fun y => tle m' y = true) (rem g' s')).
  { destruct (vh_meet_bounds _ _ RB) as [B1 B2]. destruct (vh_meet_bounds _ _ RI) as [I1 I2]. destruct (vh_meet_bounds _ _ RO) as [O1 O2].
    assert (N0 : bounds (T:=T) None []) by (intros ? H; discriminate).
    destruct (update_meet_bounds _ _ _ _ N0 B1 ltac:(auto) B2) as [G1 G1'].
    destruct (update_meet_bounds _ _ _ _ G1 I1 G1' I2) as [G2 G2']. destruct (update_meet_bounds _ _ _ _ G2 O1 G2' O2) as [G3 G3'].
    destruct (fold_meet_bounds synth _ _ G3 G3') as [G4 G4'].
    assert (TB : bounds (hd_error (skipn j (cs_meets s))) times' /\ (hd_error (skipn j (cs_meets s)) = None -> times' = [])).
    { rewrite (ci_meets _ _ C), suffix_meet_skipn. fold times'. pose proof (suffix_meet_hd times') as H. destruct (hd_error (suffix_meet times')).
      - split; [|discriminate]. intros z Hz. inversion Hz; subst. auto.
      - split; auto. intros z Hz; discriminate. }
    destruct (update_meet_bounds _ _ _ _ G4 (proj1 TB) G4' (proj2 TB)) as [G5 _].
    intros m' E. specialize (G5 m' E). rewrite Forall_forall in *. intros y Hy. apply G5. unfold rem in Hy. cbn [g' s' rb ri ro cs_times cs_synth] in Hy.
    rewrite !in_app_iff in *. tauto. }
  assert (MC : forall m', m = Some m' -> forall t, cov g' s' t -> tle m' t = true).
  { intros m' E t (y & Hy & L). pose proof (MB m' E) as H. rewrite Forall_forall in H. eapply tle_trans; [apply H; exact Hy|exact L]. }
  split; [|reflexivity].
  assert (TRIG : forall t, ~ trig g' s' t -> (tle x t = false \/ (nb = [] /\ ns = [] /\ nt = [])) -> ~ trig g s t).
  { intros t NT D (y & Hy & L). rewrite !in_app_iff in Hy.
    assert (Q : (y = x /\ ~ (nb = [] /\ ns = [] /\ nt = [])) \/ In y (times rb' ++ times' ++ synth)).
    { rewrite Eb2, Es, Et, map_app, !in_app_iff in Hy. rewrite !in_app_iff. destruct Hy as [[Hy|Hy]|[[Hy|Hy]|[Hy|Hy]]]; auto.
      - left. split; [|intros (N & _); rewrite N in Hy; destruct Hy]. apply in_map_iff in Hy. destruct Hy as (u & <- & Hu). rewrite Forall_forall in Eb5; auto.
      - left. split; [|intros (_ & _ & N); rewrite N in Hy; destruct Hy]. rewrite Forall_forall in Kt1; auto.
      - left. split; [|intros (_ & N & _); rewrite N in Hy; destruct Hy]. rewrite Forall_forall in Ks1; auto. }
    destruct Q as [[-> Q]|Q]; [destruct D as [D|D]; [congruence|auto]|]. apply NT. exists y. split; auto. }
  assert (AX : forall {V R} {OV : Ord V} {DR : Diff R} (l n : list (V * T * R)) t v, Forall (fun u => snd (fst u) = x) n -> tle x t = false -> acc (l ++ n) v t = acc l v t).
  { intros V R OV DR l n t v H N. rewrite acc_app, (acc_none n), dplus_0_r; auto. intros u Hu. rewrite Forall_forall in H. rewrite H; auto. }
  assert (UX : Forall (fun u : up2 => snd (fst u) = x) us'). { apply Forall_forall. intros u Hu. apply in_map_iff in Hu. destruct Hu as (vd & <- & _). auto. }
  constructor; cbn [g' s' eb rb ei ri eo ro ec pr vis cs_batch cs_input cs_output cs_times cs_meets cs_synth cs_current cs_meet cs_produced cs_outputs cs_new]; auto.
  - rewrite <- app_assoc, <- Eb2. apply (ci_LB _ _ C).
  - rewrite <- app_assoc, <- Ei2. apply (ci_LI _ _ C).
  - rewrite <- app_assoc, <- Eo2. apply (ci_LO _ _ C).
  - eapply bufok_weaken; [exact COV|auto].
  - eapply bufok_weaken; [exact COV|auto].
  - eapply bufok_weaken; [exact COV|auto].
  - eapply bufok_weaken; [exact COV|auto].
  - eapply curok_in; [intros y; symmetry; apply sort_dedup_in|]. destruct m as [m'|] eqn:Em.
    + apply curok_adv; [apply MC; auto|]. eapply curok_weaken; [exact COV|auto].
    + eapply curok_weaken; [exact COV|auto].
  - destruct (ci_times _ _ C) as (passed & E & H). exists (passed ++ nt). rewrite <- app_assoc, <- Et. split; auto.
    intros p Hp. rewrite !in_app_iff in *. destruct Hp; auto.
  - pose proof (ci_Ps _ _ C) as H. rewrite Et in H. clear -H. induction nt; auto. inversion H; auto.
  - rewrite (ci_meets _ _ C). apply suffix_meet_skipn.
  - apply Forall_forall. intros y Hy. destruct (Sy2 _ Hy) as [Hy'|Hy']; [|tauto]. pose proof (ci_sband _ _ C) as H. rewrite Forall_forall in H. apply H. rewrite Es. apply in_app_iff; auto.
  - apply Forall_forall. intros y Hy. destruct (REM _ Hy) as [[H _]|H]; [|tauto]. pose proof (ci_J _ _ C) as H'. rewrite Forall_forall in H'. auto.
  - apply Forall_app. split; [apply (ci_vJ _ _ C)|auto].
  - apply (Permutation_NoDup (Permutation_cons_append (vis g) x)). constructor; [|apply (ci_nd _ _ C)]. intros H. exact (lt_irrefl x (ci_lt _ _ C x x H Xin)).
  - intros e y He Hy. apply in_app_iff in He. destruct He as [He|[<-|[]]]; auto. eapply lt_trans; [apply (ci_lt _ _ C e x); auto|auto].
  - intros e He. rewrite (map_app _ (pr g)), !in_app_iff in He. destruct He as [He|[He|[He|[[He|He]|He]]]]; try (apply AE; rewrite !in_app_iff; tauto).
    apply in_map_iff in He. destruct He as (u & <- & Hu). rewrite Forall_forall in UX. rewrite (UX _ Hu). apply in_app_iff; simpl; auto.
  - apply Forall_forall; auto.
  - apply Forall_app. split; [apply (ci_prs _ _ C)|]. rewrite Forall_forall in UX. apply Forall_forall. intros u Hu. rewrite (UX _ Hu). apply HU.
    intros N. unfold us' in Hu. rewrite N in Hu. destruct Hu.
  - destruct (ci_prc _ _ C) as [P1 P2]. split.
    + rewrite map_app. apply strictly_sorted_app. split; auto. split.
      * unfold us'. rewrite map_map. cbn [fst snd]. destruct CO as [CO _]. clear -CO. induction us as [|u us IH]; [constructor|]. cbn [map] in *.
        apply strictly_sorted_cons_inv in CO. destruct CO as [C1 C2]. apply strictly_sorted_cons; [apply IH; auto|].
        rewrite Forall_map in *. eapply Forall_impl; [|exact C2]. intros w Hw. apply lt_pair. right. auto.
      * intros a b Ha Hb. apply in_map_iff in Ha, Hb. destruct Ha as (u & <- & Hu), Hb as (w & <- & Hw). apply lt_pair. left.
        rewrite Forall_forall in UX. rewrite (UX _ Hw). apply (ci_lt _ _ C); auto. apply (ci_ent _ _ C). rewrite !in_app_iff. right. right. right. left.
        apply (in_map (fun u : up2 => snd (fst u))); auto.
    + apply Forall_app. split; auto. destruct CO as [_ CO]. unfold us'. rewrite Forall_map. eapply Forall_impl; [|exact CO]. auto.
  - apply Forall_app. split; auto. apply (ci_new _ _ C).
  - intros t Ot Hnew NT. destruct (tle x t) eqn:L.
    + assert (Hs : forall y, In y synth -> tle y t = false).
      { intros y Hy. destruct (tle y t) eqn:Ly; auto. exfalso. apply NT. exists y. split; auto. rewrite !in_app_iff. cbn. auto. }
      destruct (MAIN t L Ot Hnew Hs) as [(I & A1 & A2' & A3 & A4 & A5)|(I & U & NB)].
      * left. exists x. cbn [eb ei eo pr g']. split; auto. split; auto. split.
        { apply Forall_forall. intros y Hy. destruct (tle y x) eqn:Ly; auto. exfalso. apply tle_le in Ly. pose proof (RLT _ Hy) as H.
          exact (lt_irrefl _ (lt_le_trans _ _ _ H Ly)). }
        auto.
      * right. destruct (NN I) as (N1 & N2 & N3 & _).
        assert (Ct : cov g s t) by (exists x; auto).
        assert (QB : forall v, acc (eb g ++ nb) v t = dzero).
        { intros v. rewrite <- (bo_acc _ _ _ BB v t Ct). apply acc_none. intros u Hu. apply NB. apply in_app_iff. left.
          unfold buffer_times. apply (in_map (fun u : up1 => snd (fst u))); auto. }
        assert (QP : forall p, In p P -> tle p t = false).
        { intros p Hp. destruct (tle p t) eqn:Lp; auto. exfalso. destruct (ci_times _ _ C) as (passed & E & H). rewrite E in Hp. apply in_app_iff in Hp. destruct Hp as [Hp|Hp].
          - specialize (H _ Hp). destruct CU as [_ CU]. destruct (CU p) as (y & Hy & Sy); [apply in_app_iff; auto|].
            pose proof (stands_back _ _ _ _ Ct Sy Lp) as Ly. rewrite NB in Ly; [discriminate|apply in_app_iff; auto].
          - rewrite Et, N3 in Hp. apply NT. exists p. split; auto. rewrite !in_app_iff. cbn. auto. }
        split; [exact QB|]. cbn [pr g']. unfold us'. rewrite U. cbn [map]. rewrite app_nil_r. split; [|exact QP].
        assert (QB' : forall v, acc (eb g) v t = dzero). { intros v. rewrite <- (QB v), N1, app_nil_r. auto. }
        destruct (ci_main _ _ C t Ot) as [(r & Sr & Lr & Fr & A1 & A2' & A3 & A4 & A5)|(_ & Q & _)]; auto.
        { intros y Hy. apply Hnew. apply in_app_iff; auto. }
        intros v. rewrite A4. specialize (A5 v).
        assert (E1 : FA (ei g ++ eb g) r v = FA LI r v).
        { apply FA_ext. intros a. rewrite acc_app, <- (A3 a), QB', dplus_0_r, (ci_LI _ _ C), acc_app, (acc_none (ri g)), dplus_0_r; auto.
          intros u Hu. rewrite Forall_forall in Fr. apply Fr. unfold rem. rewrite !in_app_iff. right. left. apply (in_map (fun u : up1 => snd (fst u))); auto. }
        assert (E2 : acc LO v r = acc (eo g) v r).
        { rewrite (ci_LO _ _ C), acc_app, (acc_none (ro g)), dplus_0_r; auto.
          intros u Hu. rewrite Forall_forall in Fr. apply Fr. unfold rem. rewrite !in_app_iff. right. right. left. apply (in_map (fun u : up2 => snd (fst u))); auto. }
        assert (E3 : FA LI r v = acc LO v r).
        { apply okt_base; auto; [eapply okt_down; eauto|]. intros p Hp. destruct (tle p r) eqn:Lp; auto. rewrite <- (QP p Hp). symmetry. eapply tle_trans; eauto. }
        rewrite E1, E3, E2 in A5. apply (dplus_cancel_l (acc (eo g) v r)). rewrite dplus_0_r. auto.
    + destruct (ci_main _ _ C t Ot) as [(r & Sr & Lr & Fr & A1 & A2' & A3 & A4 & A5)|(Q1 & Q2 & Q3)].
      { intros y Hy. apply Hnew. apply in_app_iff; auto. }
      { apply TRIG; auto. }
      * left. exists r. assert (Lx : tle x r = false) by (rewrite Forall_forall in Fr; auto). cbn [eb ei eo pr g'].
        split; auto. split; auto. split; [apply Forall_forall; intros y Hy; apply RNL; auto|].
        do 4 (split; [intros v; rewrite !AX by auto; auto|]). intros v. rewrite !AX by auto. rewrite <- A5. apply FA_ext. intros a. rewrite !acc_app.
        rewrite (acc_none ni), (acc_none nb), !dplus_0_r; auto.
        { intros u Hu. rewrite Forall_forall in Eb5. rewrite Eb5; auto. }
        { intros u Hu. rewrite Forall_forall in Ei5. rewrite Ei5; auto. }
      * right. unfold quiet. cbn [eb pr g']. split; [|split; auto]; intros v; rewrite AX; auto.
Qed.

(** ** The loop *)
Lemma loop_ok n : forall g s, cinv g s -> exists fin s' g', compute_loop logic upper n key s = Some (fin, s') /\ cinv g' s' /\
  if fin then next_time s' = None else length (vis g') = length (vis g) + 2 ^ n.
Proof.
  induction n as [|n IH]; intros g s C; cbn [compute_loop].
  - destruct (next_time s) as [x|] eqn:E.
    + destruct (step_ok g s x C E) as (g' & s' & E1 & C' & V). rewrite E1. exists false, s', g'. split; auto. split; auto.
      rewrite V, app_length. reflexivity.
    + exists true, s, g. auto.
  - destruct (IH g s C) as (fin & s1 & g1 & E1 & C1 & V1'). rewrite E1. destruct fin.
    + exists true, s1, g1. auto.
    + destruct (IH g1 s1 C1) as (fin & s2 & g2 & E2 & C2 & V2'). exists fin, s2, g2. split; auto. split; auto.
      destruct fin; auto. cbn [Nat.pow]. lia.
Qed.
Lemma vis_bound g s : cinv g s -> length (vis g) < 2 ^ (length LB + length P + length LI + length LO).
Proof.
  intros C. assert (H : length (vis g) <= length J).
  { apply NoDup_incl_length; [apply (ci_nd _ _ C)|]. intros y Hy. pose proof (ci_vJ _ _ C) as H. rewrite Forall_forall in H. auto. }
  pose proof (joins_length (times LB ++ P ++ times LI ++ times LO)) as E. fold J in E.
  rewrite !app_length, !map_length in E. replace (length LB + length P + length LI + length LO) with (length LB + (length P + (length LI + length LO))) by lia. lia.
Qed.
Lemma loop_finishes g s : cinv g s -> vis g = [] -> exists s' g',
  compute_loop logic upper (length LB + length P + length LI + length LO) key s = Some (true, s') /\ cinv g' s' /\ rem g' s' = [].
Proof.
  intros C V. destruct (loop_ok (length LB + length P + length LI + length LO) g s C) as (fin & s' & g' & E & C' & H).
  destruct fin.
  - exists s', g'. split; auto. split; auto. apply next_none; auto.
  - pose proof (vis_bound _ _ C'). rewrite V in H. cbn [length] in H. lia.
Qed.

(** what the loop leaves *)
Lemma loop_result hb hi ho (outs : list (T * list up2)) m :
  replays hb LB -> vh_buffer hb = [] -> replays hi LI -> vh_buffer hi = [] -> replays ho LO -> vh_buffer ho = [] ->
  strictly_sorted P -> map fst outs = held -> Forall (fun o => snd o = []) outs ->
  bounds m (times LB ++ P ++ times LI ++ times LO) ->
  exists s' l, compute_loop logic upper (length LB + length P + length LI + length LO) key
    {| cs_batch := hb; cs_input := hi; cs_output := ho; cs_times := P; cs_meets := suffix_meet P; cs_synth := []; cs_current := []; cs_meet := m;
       cs_produced := []; cs_outputs := outs; cs_new := [] |} = Some (true, s') /\
    allots (cs_outputs s') l /\
    strictly_sorted (map (fun u => (snd (fst u), fst (fst u))) l) /\ Forall (fun u => is_zero (snd u) = false) l /\
    Forall (fun u => seeded (snd (fst u)) /\ ac_less_equal upper (snd (fst u)) = false) l /\
    Forall (fun y => ac_less_equal upper y = true /\ seeded y) (cs_new s') /\
    forall t, okt t -> seeded t -> (forall y, In y (cs_new s') -> tle y t = false) -> forall v, FA (LI ++ LB) t v = dplus (acc LO v t) (acc l v t).
Proof.
  intros Hb Bb Hi Bi Ho Bo SP HO HE HM.
  set (s0 := {| cs_batch := hb; cs_input := hi; cs_output := ho; cs_times := P; cs_meets := suffix_meet P; cs_synth := []; cs_current := []; cs_meet := m;
       cs_produced := []; cs_outputs := outs; cs_new := [] |}).
  set (g0 := {| eb := []; rb := LB; ei := []; ri := LI; eo := []; ro := LO; ec := []; pr := []; vis := [] |}).
  assert (RE : forall y, In y (rem g0 s0) <-> In y (times LB ++ P ++ times LI ++ times LO)).
  { intros y. unfold rem. cbn. rewrite app_nil_r, !in_app_iff. tauto. }
  assert (C : cinv g0 s0).
  { constructor; cbn [g0 s0 eb rb ei ri eo ro ec pr vis cs_batch cs_input cs_output cs_times cs_meets cs_synth cs_current cs_meet cs_produced cs_outputs cs_new]; auto.
    - rewrite Bb. apply bufok_nil.
    - rewrite Bi. apply bufok_nil.
    - rewrite Bo. apply bufok_nil.
    - apply bufok_nil.
    - split; [constructor|intros e []].
    - exists []. split; auto.
    - apply strictly_StronglySorted; auto.
    - intros m' E. specialize (HM m' E). rewrite Forall_forall in *. intros y Hy. apply HM, RE; auto.
    - constructor.
    - apply Forall_forall. intros y Hy. apply joins_base, RE; auto.
    - constructor.
    - intros e y [].
    - split; constructor.
    - split; auto. intros i t us Hn. rewrite Forall_forall in HE. apply nth_error_In in Hn. apply HE in Hn. cbn in *; auto.
    - intros t Ot _ NT. right. split; [|split]; auto. intros p Hp. destruct (tle p t) eqn:L; auto. exfalso. apply NT. exists p. split; auto.
      cbn. rewrite !in_app_iff. auto. }
  destruct (loop_finishes _ _ C eq_refl) as (s' & g' & E & C' & R). exists s', (pr g'). split; auto.
  split; [apply (ci_out _ _ C')|]. split; [apply (ci_prc _ _ C')|]. split; [apply (ci_prc _ _ C')|]. split; [apply (ci_prs _ _ C')|].
  split; [apply (ci_new _ _ C')|]. intros t Ot St Hn v.
  unfold rem in R. apply app_eq_nil in R. destruct R as [Q1n R]. apply app_eq_nil in R. destruct R as [Q2n R]. apply app_eq_nil in R. destruct R as [Q3n R].
  apply app_eq_nil in R. destruct R as [Q4n Q5n]. apply map_eq_nil in Q1n, Q2n, Q3n.
  assert (EB : eb g' = LB) by (rewrite (ci_LB _ _ C'), Q1n, app_nil_r; auto). assert (EI : ei g' = LI) by (rewrite (ci_LI _ _ C'), Q2n, app_nil_r; auto).
  assert (EO : eo g' = LO) by (rewrite (ci_LO _ _ C'), Q3n, app_nil_r; auto).
  destruct (ci_main _ _ C' t Ot Hn) as [(r & Sr & Lr & Fr & A1 & A2' & A3 & A4 & A5)|(Q1 & Q2 & Q3)].
  { intros (y & Hy & _). rewrite Q1n, Q4n, Q5n in Hy. destruct Hy. }
  - rewrite EB, EI, EO in *. rewrite A2', A4, <- A5. apply FA_ext. intros a. rewrite !acc_app, A1, A3. auto.
  - rewrite Q2, dplus_0_r, <- (okt_base t Ot St Q3 v). apply FA_ext. intros a. rewrite acc_app, <- EB, Q1, dplus_0_r. auto.
Qed.
End Loop.
