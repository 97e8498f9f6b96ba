(** * C34: the captured source, spread over the operators of all workers, delivers every update exactly once *)
From Verif Require Import Proofs.CaptureSourceP.
From Coq Require Import List ZArith Lia.
Import ListNotations.

Section C34Source.
Context {D T R : Type} {OD : Ord D} {TT : Time T} {OR : Ord R}.
Notation update := (D * T * R)%type.
(** Any number of workers, any hash functions; the updates, no two with the same data and time; for each
    worker messages about them, repeated and spread over workers in any way. *)
Variables (W : nat) (hash_update : update -> nat) (hash_time : T -> nat) (all : list update) (sources : nat -> list (message D T R)).
Hypothesis HW : 0 < W.
Hypothesis Hall : NoDup (map fst all).
Hypothesis Hsources : forall w, w < W -> Forall (tells_about all) (sources w).
(** The messages of all workers. *)
Notation messages := (flat_map sources (List.seq 0 W)).

(** Whatever the workers do, in whatever order, with messages delivered in any order: nothing panics. *)
Theorem c34_source_never_panics acts : may_run W hash_update hash_time (st_new W sources) acts ->
  exists s, run W hash_update hash_time (st_new W sources) acts = Some s.
Proof.
  intros HM. destruct (run_ok W hash_update hash_time HW all Hall acts _ _ (inv_st_new W hash_update hash_time HW all sources Hsources) HM) as (s & _ & E & _). exists s. auto.
Qed.
(** No update is emitted twice, and nothing else is emitted. *)
Theorem c34_source_at_most_once acts s : may_run W hash_update hash_time (st_new W sources) acts ->
  run W hash_update hash_time (st_new W sources) acts = Some s -> NoDup (emitted s) /\ incl (emitted s) all.
Proof.
  intros HM HE. destruct (run_ok W hash_update hash_time HW all Hall acts _ _ (inv_st_new W hash_update hash_time HW all sources Hsources) HM) as (s' & f & E & I & _).
  rewrite HE in E. injection E as <-. split; [apply (si_nodup _ _ _ _ _ _ I)|apply (si_incl _ _ _ _ _ _ I)].
Qed.
(** Once a worker's frontier, learned or held as capabilities, has passed a time, all updates at that time have been emitted. *)
Theorem c34_source_frontier_sound acts s u q : may_run W hash_update hash_time (st_new W sources) acts ->
  run W hash_update hash_time (st_new W sources) acts = Some s -> q < W -> In u all ->
  ~ beyond (learned s q) (snd (fst u)) \/ ~ beyond (st_caps s q) (snd (fst u)) -> In u (emitted s).
Proof.
  intros HM HE Hq Hu. destruct (run_ok W hash_update hash_time HW all Hall acts _ _ (inv_st_new W hash_update hash_time HW all sources Hsources) HM) as (s' & f & E & I & _).
  rewrite HE in E. injection E as <-. intros [Hn|Hn]; [apply (learned_sound W hash_update hash_time HW all f s q u I Hq Hu Hn)|apply (si_held _ _ _ _ _ _ I q u Hq Hu Hn)].
Qed.
(** With totally ordered times, an update is emitted in a message whose time is not after its own. *)
Theorem c34_source_message_times acts s c u : (forall a b : T, tle a b = true \/ tle b a = true) -> may_run W hash_update hash_time (st_new W sources) acts ->
  run W hash_update hash_time (st_new W sources) acts = Some s -> In (c, u) (st_out s) -> tle c (snd (fst u)) = true.
Proof.
  intros TO HM HE. destruct (run_ok W hash_update hash_time HW all Hall acts _ _ (inv_st_new W hash_update hash_time HW all sources Hsources) HM) as (s' & f & E & I & _ & _ & HT).
  rewrite HE in E. injection E as <-. apply HT; auto. split; [intros k c' us u' []|intros c' u' []].
Qed.
(** If every update is in some message then, once all workers are at rest, every update has been emitted,
    every worker has learned a frontier at or past any that the statements reach together, and from its
    next activation on holds no capability before it. *)
Theorem c34_source_complete acts s : may_run W hash_update hash_time (st_new W sources) acts ->
  run W hash_update hash_time (st_new W sources) acts = Some s -> at_rest W s ->
  (forall u, In u all -> exists us, In (Updates us) messages /\ In u us) ->
  incl all (emitted s) /\
  forall F, reaches messages F -> forall q t, q < W ->
    (beyond (learned s q) t -> beyond F t) /\
    (forall n s', step W hash_update hash_time s (AMessages q n) = Some s' -> beyond (st_caps s' q) t -> beyond F t).
Proof.
  intros HM HE HR HD. destruct (run_ok W hash_update hash_time HW all Hall acts _ _ (inv_st_new W hash_update hash_time HW all sources Hsources) HM) as (s' & f & E & I & HC & HH & _).
  rewrite HE in E. injection E as <-. assert (HI : incl all (emitted s)).
  { intros u Hu. apply (rest_emitted W hash_update hash_time all f s u I HR Hu). apply HC. right. left. destruct (HD u Hu) as (us & H1 & H2).
    apply (in_all_messages W HW sources) in H1 as (w & Hw & H1). exists w, us. auto. }
  split; auto. intros F HF q t Hq. assert (HL : beyond (learned s q) t -> beyond F t).
  { intros Hb. apply (rest_learned W hash_update hash_time HW all Hall sources f s F I HR HI) with (q := q); auto.
    intros p Hp. apply HH. left. apply (in_all_messages W HW sources) in Hp. auto. }
  split; auto. intros n s2 Hs Hb. apply HL. cbn [step] in Hs. rewrite (messages_caps W hash_update hash_time all f s q n s2 I Hq Hs) in Hb. auto.
Qed.
End C34Source.
Print Assumptions c34_source_never_panics.
Print Assumptions c34_source_at_most_once.
Print Assumptions c34_source_frontier_sound.
Print Assumptions c34_source_message_times.
Print Assumptions c34_source_complete.

(** ** A concrete run: two workers, messages repeated, and statements read before the updates they count *)
Definition c34s_a : nat * nat * Z := (7, 0, 1%Z).
Definition c34s_b : nat * nat * Z := (8, 0, 1%Z).
Definition c34s_c : nat * nat * Z := (9, 1, 1%Z).
Definition c34s_p1 : Progress nat := {| p_lower := [0]; p_upper := [1]; p_counts := [(0, 2)] |}.
Definition c34s_p2 : Progress nat := {| p_lower := [1]; p_upper := [2]; p_counts := [(1, 1)] |}.
Definition c34s_sources (w : nat) : list (message nat nat Z) :=
  match w with
  | 0 => [Statement c34s_p2; Updates [c34s_a; c34s_a; c34s_c]; Statement c34s_p1]
  | 1 => [Updates [c34s_b; c34s_a]; Statement c34s_p2]
  | _ => []
  end.
Definition c34s_hu (u : nat * nat * Z) : nat := fst (fst u).
Definition c34s_ht (t : nat) : nat := t.
Definition c34s_acts : list (action nat) :=
  [AMessages 0 2; AUpdates 1 [0] 0; AProgress 1 [] [0]; AMessages 1 2; AUpdates 0 [0] 0; AUpdates 1 [0] 0; AProgress 0 [0] [1; 0];
   AMessages 0 1; AProgress 0 [0; 0; 0] [0; 0]; AProgress 1 [0] [0; 0; 0]; AFeedback 0 [0; 1; 0]; AFeedback 1 [1; 0]; AMessages 0 0;
   AUpdates 0 [0] 0; AMessages 1 4; AUpdates 1 [2] 0].
Notation c34s_run := (run 2 c34s_hu c34s_ht (st_new 2 c34s_sources) c34s_acts).
(** a check of [may_run] by computation *)
Section Check.
Context {D T R : Type} {OD : Ord D} {TT : Time T} {OR : Ord R}.
Variables (W : nat) (hash_update : D * T * R -> nat) (hash_time : T -> nat).
Definition may_actb (s : state D T R) (a : action T) : bool :=
  match a with
  | AMessages w _ => w <? W
  | AUpdates w F _ => (w <? W) && ac_le (st_shown s w) F && forallb (fun v => forallb (ac_less_equal F) (st_caps s v)) (List.seq 0 W)
  | AProgress p _ _ => p <? W
  | AFeedback q ps => (q <? W) && forallb (fun p => p <? W) ps
  end.
Fixpoint may_runb (s : state D T R) (acts : list (action T)) : bool :=
  match acts with
  | [] => true
  | a :: acts => may_actb s a && match step W hash_update hash_time s a with Some s' => may_runb s' acts | None => true end
  end.
Lemma may_runb_ok acts : forall s, may_runb s acts = true -> may_run W hash_update hash_time s acts.
Proof.
  induction acts as [|a acts IH]; intros s H; cbn [may_run may_runb] in *; auto. apply andb_true_iff in H as [H1 H2]. split; [|destruct (step _ _ _ s a); auto].
  destruct a as [w n|w F k|p cs ps|q ps]; cbn [may_act may_actb] in *; try (apply Nat.ltb_lt; exact H1).
  - apply andb_true_iff in H1 as [H1 H3]. apply andb_true_iff in H1 as [H1 H4]. split; [apply Nat.ltb_lt; auto|split; [apply ac_le_spec; auto|]].
    intros v c Hv Hc. rewrite forallb_forall in H3. specialize (H3 v). rewrite forallb_forall in H3. apply ac_less_equal_spec. apply H3; auto. apply in_seq. lia.
  - apply andb_true_iff in H1 as [H1 H3]. split; [apply Nat.ltb_lt; auto|]. apply Forall_forall. intros p Hp. rewrite forallb_forall in H3. apply Nat.ltb_lt. auto.
Qed.
End Check.
Definition c34s_all : list (nat * nat * Z) := [c34s_a; c34s_b; c34s_c].
Example c34_source_ex :
  NoDup (map fst c34s_all) /\ (forall w, w < 2 -> Forall (tells_about c34s_all) (c34s_sources w)) /\
  may_run 2 c34s_hu c34s_ht (st_new 2 c34s_sources) c34s_acts /\
  (forall u, In u c34s_all -> exists us, In (Updates us) (flat_map c34s_sources (List.seq 0 2)) /\ In u us) /\ reaches (flat_map c34s_sources (List.seq 0 2)) [2] /\
  exists s, c34s_run = Some s /\ at_rest 2 s /\ st_out s = [(0, c34s_a); (0, c34s_c); (0, c34s_b)] /\ learned s 0 = [2] /\ learned s 1 = [2].
Proof.
  assert (B : forall a t : nat, beyond [a] t <-> a <= t) by (intros a t; split; [intros (f & [<-|[]] & Hf); apply nat_tle; auto|intros H; exists a; split; [left; auto|apply nat_tle; auto]]).
  assert (P1 : truthful c34s_all c34s_p1).
  { split; [repeat constructor; cbn; tauto|]. intros t c. cbn [c34s_p1 p_counts p_lower p_upper]. rewrite !B. split; [intros [E|[]]; inversion E; subst; split; [lia|split; [lia|split; [reflexivity|lia]]]|].
    intros (H1 & H2 & H3 & H4). assert (t = 0) as -> by lia. left. rewrite H3. reflexivity. }
  assert (P2 : truthful c34s_all c34s_p2).
  { split; [repeat constructor; cbn; tauto|]. intros t c. cbn [c34s_p2 p_counts p_lower p_upper]. rewrite !B. split; [intros [E|[]]; inversion E; subst; split; [lia|split; [lia|split; [reflexivity|lia]]]|].
    intros (H1 & H2 & H3 & H4). assert (t = 1) as -> by lia. left. rewrite H3. reflexivity. }
  split; [repeat constructor; cbn; intuition discriminate|]. split; [|split; [|split; [|split]]].
  - intros w Hw. assert (Hc : w = 0 \/ w = 1) by lia. destruct Hc as [->| ->]; cbn [c34s_sources]; repeat (apply Forall_cons; [cbn [tells_about]; auto; intros x Hx; cbn in *; intuition|]); apply Forall_nil.
  - apply may_runb_ok. vm_compute. reflexivity.
  - intros u [<-|[<-|[<-|[]]]]; [exists [c34s_a; c34s_a; c34s_c]|exists [c34s_b; c34s_a]|exists [c34s_a; c34s_a; c34s_c]]; cbn; intuition.
  - apply (re_step _ [1] c34s_p2); [apply (re_step _ [0] c34s_p1); [exact (re_start _)|cbn; intuition|auto]|cbn; intuition|auto].
  - assert (Q : match c34s_run with
                | Some s => (map (st_source s) [0; 1], map (st_updates s) [0; 1], map (st_counts s) [0; 1], map (st_progress s) [0; 1]) = ([[]; []], [[]; []], [[]; []], [[]; []]) /\
                    map (fun p => map (st_feedback s p) [0; 1]) [0; 1] = [[[]; []]; [[]; []]] /\ st_out s = [(0, c34s_a); (0, c34s_c); (0, c34s_b)] /\ learned s 0 = [2] /\ learned s 1 = [2]
                | None => False
                end) by (vm_compute; repeat split; reflexivity).
    destruct c34s_run as [s|] eqn:E; [|destruct Q]. exists s. destruct Q as (Q1 & Q2 & Q). split; auto. split; auto. cbn [map] in *. injection Q1 as A1 A2 A3 A4 A5 A6 A7 A8. injection Q2 as B1 B2 B3 B4.
    assert (C : forall w, w < 2 -> w = 0 \/ w = 1) by lia.
    intros w Hw. destruct (C w Hw) as [->| ->]; repeat split; auto; intros p Hp; destruct (C p Hp) as [->| ->]; auto.
Qed.

(** ** Limits *)
(** With partially ordered times an update may be emitted in a message whose time is not at or before its
    own, which timely does not allow: all updates are sent with one of several capabilities. *)
Definition c34t_a : nat * (nat * nat) * Z := (7, (1, 0), 1%Z).
Definition c34t_b : nat * (nat * nat) * Z := (8, (0, 1), 1%Z).
Definition c34t_p : Progress (nat * nat) := {| p_lower := [(0, 0)]; p_upper := [(1, 0); (0, 1)]; p_counts := [] |}.
Definition c34t_sources (w : nat) : list (message nat (nat * nat) Z) := match w with 0 => [Statement c34t_p; Updates [c34t_a; c34t_b]] | _ => [] end.
Definition c34t_acts : list (action (nat * nat)) := [AMessages 0 1; AProgress 0 [] [0]; AFeedback 0 [0]; AMessages 0 1; AUpdates 0 [(1, 0); (0, 1)] 0].
Theorem c34_source_message_times_refuted :
  exists (all : list (nat * (nat * nat) * Z)) (sources : nat -> list (message nat (nat * nat) Z)) acts s c u,
    NoDup (map fst all) /\ (forall w, w < 1 -> Forall (tells_about all) (sources w)) /\
    may_run 1 (fun _ => 0) (fun _ => 0) (st_new 1 sources) acts /\ run 1 (fun _ => 0) (fun _ => 0) (st_new 1 sources) acts = Some s /\
    In (c, u) (st_out s) /\ tle c (snd (fst u)) = false.
Proof.
  exists [c34t_a; c34t_b], c34t_sources, c34t_acts.
  assert (Q : match run 1 (fun _ => 0) (fun _ => 0) (st_new 1 c34t_sources) c34t_acts with
              | Some s => exists c u, In (c, u) (st_out s) /\ tle c (snd (fst u)) = false
              | None => False
              end).
  { vm_compute. first [exists (1, 0), c34t_b; split; [solve [auto]|reflexivity]|exists (0, 1), c34t_a; split; [solve [auto]|reflexivity]]. }
  destruct (run 1 (fun _ => 0) (fun _ => 0) (st_new 1 c34t_sources) c34t_acts) as [s|] eqn:E; [|destruct Q]. destruct Q as (c & u & Q1 & Q2). exists s, c, u.
  split; [repeat constructor; cbn; intuition discriminate|]. split; [|split; [apply may_runb_ok; vm_compute; reflexivity|auto]].
  intros w Hw. assert (w = 0) as -> by lia. cbn [c34t_sources]. apply Forall_cons; [|apply Forall_cons; [|apply Forall_nil]]; cbn [tells_about].
  - split; [constructor|]. intros [t1 t2] c'. cbn [c34t_p p_counts p_lower p_upper]. split; [intros []|]. intros (_ & Hn & -> & Hc). destruct t1 as [|t1]; [destruct t2 as [|t2]|].
    + vm_compute in Hc. inversion Hc.
    + destruct Hn. exists (0, 1). split; [right; left; auto|]. apply andb_true_iff. split; apply nat_tle; cbn [fst snd]; lia.
    + destruct Hn. exists (1, 0). split; [left; auto|]. apply andb_true_iff. split; apply nat_tle; cbn [fst snd]; lia.
  - intros x Hx. auto.
Qed.
Print Assumptions c34_source_message_times_refuted.
