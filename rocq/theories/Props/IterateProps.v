(** C29: loops. *)
From Verif Require Import Base.Collections Spec.IterateSpec Proofs.LatticeP Proofs.LinearP Proofs.IterateP Props.LinearProps.

Section C29.
Context {D T R : Type} {OD : Ord D} {TT : Time T} {DR : Diff R} {AR : Abelian R}.
Variable max step : nat.                                   (* the largest iteration, and the variable's step *)
Variable f : T -> (D -> R) -> D -> R.                      (* what the body does at an outer time *)

(** Whatever the source, and in whatever order messages are delivered: once the collection of a variable
    created by [new_from] has settled at an iteration before the first step, it is the source there; and at
    a later one it is the body applied to what it was a step before, plus what the source gained meanwhile. *)
Theorem c29_variable_equation : forall l (s : Loop D T R), loop_run max step true loop_new l = Some s -> Forall (sent_by max) l ->
  forall t i, i <= max -> settled max step f s (t, i) -> forall d,
  at_time (lp_collection s) (t, i) d =
    if i <? step then at_time (lp_source s) (t, i) d
    else dplus (f t (at_time (lp_collection s) (t, i - step)) d) (dplus (at_time (lp_source s) (t, i) d) (dneg (at_time (lp_source s) (t, i - step) d))).
Proof.
  intros l s Hr Hl t i Hi HS d. assert (HI := loop_run_ok max step true l _ _ (loop_new_ok max step true) Hl Hr).
  rewrite (settled_equation max step true f s t i HI Hi HS d). destruct (Nat.ltb_spec i step), (Nat.leb_spec step i); auto; lia.
Qed.

(** With a source from outside the loop: the collection at iteration [i] is the body applied to the source
    once for each step, and the body's result is that with the body applied once more. *)
Theorem c29_variable : forall l (s : Loop D T R) outer, 0 < step -> (forall t, extensional (f t)) ->
  loop_run max step true loop_new l = Some s -> Forall (sent_by max) l -> lp_source s = c_enter product_refines outer ->
  forall t i, i <= max -> settled max step f s (t, i) ->
  (forall d, at_time (lp_collection s) (t, i) d = repeated (f t) (i / step) (fun d => acc (updates outer) d t) d) /\
  (answered f s (t, i) -> forall d, at_time (lp_result s) (t, i) d = repeated (f t) (S (i / step)) (fun d => acc (updates outer) d t) d).
Proof.
  intros l s outer Hs Hf Hr Hl Ho t i Hi HS. assert (HI := loop_run_ok max step true l _ _ (loop_new_ok max step true) Hl Hr).
  assert (HC : forall d, at_time (lp_collection s) (t, i) d = repeated (f t) (i / step) (fun d => acc (updates outer) d t) d).
  { apply (collection_iterates max step Hs f Hf true s t _ HI); auto. intros j d. unfold at_time. rewrite Ho.
    rewrite (proj1 (c31_enter product_refines outer product_is_refines)). auto. }
  split; [exact HC|]. intros Ha d. rewrite Ha. cbn [repeated fst]. apply Hf. exact HC.
Qed.

(** A variable created by [new] starts from the empty collection. *)
Theorem c29_variable_new : forall l (s : Loop D T R), 0 < step -> (forall t, extensional (f t)) ->
  loop_run max step false loop_new l = Some s -> Forall (sent_by max) l ->
  forall t i, i <= max -> settled max step f s (t, i) ->
  (forall d, at_time (lp_collection s) (t, i) d = repeated (f t) (i / step) (fun _ => dzero) d) /\
  (answered f s (t, i) -> forall d, at_time (lp_result s) (t, i) d = repeated (f t) (S (i / step)) (fun _ => dzero) d).
Proof.
  intros l s Hs Hf Hr Hl t i Hi HS. assert (HI := loop_run_ok max step false l _ _ (loop_new_ok max step false) Hl Hr).
  assert (HC : forall d, at_time (lp_collection s) (t, i) d = repeated (f t) (i / step) (fun _ => dzero) d).
  { apply (collection_iterates max step Hs f Hf false s t _ HI); auto. }
  split; [exact HC|]. intros Ha d. rewrite Ha. cbn [repeated fst]. apply Hf. exact HC.
Qed.

Lemma repeated_ext t c1 c2 n : extensional (f t) -> (forall d, c1 d = c2 d) -> forall d, repeated (f t) n c1 d = repeated (f t) n c2 d.
Proof. intros Hf H. induction n as [|n IH]; auto. cbn [repeated]. apply Hf. auto. Qed.
Lemma stable t n c : extensional (f t) -> (forall d, repeated (f t) (S n) c d = repeated (f t) n c d) ->
  forall m, n <= m -> forall d, repeated (f t) m c d = repeated (f t) n c d.
Proof. intros Hf H m Hm. induction Hm as [|m Hm IH]; auto. intros d. rewrite <- H. cbn [repeated]. apply Hf. auto. Qed.
Lemma left_last (s : Loop D T R) l from : loop_run max step from loop_new l = Some s -> Forall (sent_by max) l ->
  forall t d, acc (updates (c_leave product_refines (lp_result s))) d t = at_time (lp_result s) (t, max) d.
Proof.
  intros Hr Hl t d. assert (HI := loop_run_ok max step from l _ _ (loop_new_ok max step from) Hl Hr).
  apply (proj1 (c31_leave product_refines (lp_result s) product_is_refines) d (t, max)). intros x Hx. apply in_flat_map in Hx as (m & Hm & Hx).
  pose proof (li_result _ _ _ _ HI) as HR. rewrite Forall_forall in HR. specialize (HR m Hm). unfold sendable in HR. rewrite Forall_forall in HR. destruct (HR x Hx) as [_ H].
  destruct x as [[d' [t' i']] r]. cbn [fst snd to_outer product_refines] in *. intros Ht. rewrite inner_tle, Ht. apply Nat.leb_le. auto.
Qed.

(** What leaves the loop, once nothing circulates at an outer time: the body applied until the iterations run
    out; and if applying it stabilises before that, the fixed point that it stabilises at. *)
Theorem c29_iterate : forall l (s : Loop D T R) outer, step = 1 -> (forall t, extensional (f t)) ->
  loop_run max step true loop_new l = Some s -> Forall (sent_by max) l -> lp_source s = c_enter product_refines outer ->
  forall t, settled max step f s (t, max) -> answered f s (t, max) ->
  let start := fun d => acc (updates outer) d t in
  let end_ := fun d => acc (updates (c_leave product_refines (lp_result s))) d t in
  (forall d, end_ d = repeated (f t) (S max) start d) /\
  (forall n, n <= S max -> (forall d, f t (repeated (f t) n start) d = repeated (f t) n start d) ->
     (forall d, end_ d = repeated (f t) n start d) /\ (forall d, f t end_ d = end_ d)).
Proof.
  intros l s outer H1 Hf Hr Hl Ho t HS Ha start end_.
  assert (Hs : 0 < step) by lia.
  assert (HE : forall d, end_ d = repeated (f t) (S max) start d).
  { intros d. unfold end_. rewrite (left_last s l true Hr Hl). rewrite (proj2 (c29_variable l s outer Hs Hf Hr Hl Ho t max (le_n _) HS) Ha). subst step. rewrite Nat.div_1_r. auto. }
  split; [exact HE|]. intros n Hn Hfix.
  assert (HN : forall d, end_ d = repeated (f t) n start d) by (intros d; rewrite HE; apply stable; auto).
  split; [exact HN|]. intros d. rewrite HN, <- Hfix. apply Hf. exact HN.
Qed.
(** The same for [iterate] on a scope, which starts from nothing. *)
Theorem c29_iterate_new : forall l (s : Loop D T R), step = 1 -> (forall t, extensional (f t)) ->
  loop_run max step false loop_new l = Some s -> Forall (sent_by max) l ->
  forall t, settled max step f s (t, max) -> answered f s (t, max) ->
  let end_ := fun d => acc (updates (c_leave product_refines (lp_result s))) d t in
  (forall d, end_ d = repeated (f t) (S max) (fun _ => dzero) d) /\
  (forall n, n <= S max -> (forall d, f t (repeated (f t) n (fun _ => dzero)) d = repeated (f t) n (fun _ => dzero) d) ->
     (forall d, end_ d = repeated (f t) n (fun _ => dzero) d) /\ (forall d, f t end_ d = end_ d)).
Proof.
  intros l s H1 Hf Hr Hl t HS Ha end_.
  assert (Hs : 0 < step) by lia.
  assert (HE : forall d, end_ d = repeated (f t) (S max) (fun _ => dzero) d).
  { intros d. unfold end_. rewrite (left_last s l false Hr Hl). rewrite (proj2 (c29_variable_new l s Hs Hf Hr Hl t max (le_n _) HS) Ha). subst step. rewrite Nat.div_1_r. auto. }
  split; [exact HE|]. intros n Hn Hfix.
  assert (HN : forall d, end_ d = repeated (f t) n (fun _ => dzero) d) by (intros d; rewrite HE; apply stable; auto).
  split; [exact HN|]. intros d. rewrite HN, <- Hfix. apply Hf. exact HN.
Qed.
End C29.
Print Assumptions c29_variable_equation. Print Assumptions c29_variable. Print Assumptions c29_variable_new.
Print Assumptions c29_iterate. Print Assumptions c29_iterate_new.

(** The loop of the documentation: halve even numbers until they are odd.  4 enters at time 0, and 6 at time 1;
    the body's answers are consolidated, and the last of them is empty. *)
Definition halve (x : nat) : nat := if Nat.even x then Nat.div2 x else x.
Definition halves (t : nat) (c : nat -> Z) (d : nat) : Z := Z.add (c (2 * d)) (if Nat.odd d then c d else 0%Z).
Notation "'c29_outer'" := ([(0, [(4, 0, 1%Z)]); (1, [(6, 1, 1%Z)])] : stream nat (nat * nat * Z)).
Notation "'c29_events'" := ([
  LSource ((0, 0), [(4, (0, 0), 1%Z)]); LDeliver 0;
  LBody ((0, 0), [(2, (0, 0), 1%Z)]); LFeedback 1;
  LSource ((1, 0), [(6, (1, 0), 1%Z)]);
  LBody ((0, 1), [(1, (0, 1), 1%Z)]); LFeedback 0; LFeedback 0; LDeliver 0;
  LBody ((0, 1), [(2, (0, 1), (-1)%Z)]); LBody ((1, 0), [(3, (1, 0), 1%Z)]);
  LFeedback 2; LFeedback 0; LFeedback 0;
  LBody ((0, 2), []); LFeedback 0] : list (loop_event nat nat Z)).
Lemma halves_map (c : list (nat * (nat * nat) * Z)) d u : acc (map (fun x => (halve (fst (fst x)), snd (fst x), snd x)) c) d u = halves (fst u) (fun d => acc c d u) d.
Proof.
  unfold halves. induction c as [|[[x v] r] c IH]; [rewrite !acc_nil; cbn; destruct (Nat.odd d); auto|]. cbn [map fst snd]. rewrite !acc_cons', IH. cbn [fst snd].
  change (@dplus Z Diff_Z) with Z.add. change (@dzero Z Diff_Z) with 0%Z.
  assert (HX : eqb (halve x) d = (if Nat.even x then eqb x (2 * d) else eqb x d)).
  { unfold halve. destruct (Nat.even x) eqn:E; auto. apply Nat.even_spec in E as [y ->]. rewrite Nat.div2_double.
    destruct (eqb_spec y d), (eqb_spec (2 * y) (2 * d)); auto; lia. }
  rewrite HX. destruct (Nat.even x) eqn:E.
  - destruct (eqb_spec x d) as [->|].
    + unfold Nat.odd. rewrite E. cbn [negb]. destruct (_ && _); lia.
    + cbn [andb]. destruct (_ && _), (Nat.odd d); lia.
  - destruct (eqb_spec x (2 * d)) as [->|].
    + exfalso. rewrite Nat.even_mul in E. discriminate.
    + cbn [andb]. destruct (eqb_spec x d) as [->|]; cbn [andb]; [|destruct (Nat.odd d); lia]. unfold Nat.odd. rewrite E. cbn [negb]. destruct (tle _ _); lia.
Qed.
Example c29_halving : exists s, loop_run 9 1 true loop_new c29_events = Some s /\ Forall (sent_by 9) c29_events /\
  lp_source s = c_enter product_refines c29_outer /\ (forall t, extensional (halves t)) /\
  (forall u, settled 9 1 halves s u) /\ (forall u, answered halves s u) /\
  (forall d, repeated (halves 1) 2 (fun d => acc (updates c29_outer) d 1) d = if eqb d 1 || eqb d 3 then 1%Z else 0%Z) /\
  (forall d, halves 1 (repeated (halves 1) 2 (fun d => acc (updates c29_outer) d 1)) d = repeated (halves 1) 2 (fun d => acc (updates c29_outer) d 1) d) /\
  acc (updates (c_leave product_refines (lp_result s))) 3 1 = 1%Z.
Proof.
  eexists. split; [vm_compute; reflexivity|].
  assert (HA : forall u, answered halves (D:=nat) (T:=nat) {| lp_source := [(0, 0, [(4, (0, 0), 1%Z)]); (1, 0, [(6, (1, 0), 1%Z)])];
    lp_collection := [(0, 0, [(4, (0, 0), 1%Z)]); (0, 1, [(2, (0, 1), 1%Z)]); (0, 1, [(4, (0, 1), (-1)%Z)]); (1, 1, [(6, (1, 1), (-1)%Z)]);
      (1, 0, [(6, (1, 0), 1%Z)]); (1, 1, [(3, (1, 1), 1%Z)]); (0, 2, [(1, (0, 2), 1%Z)]); (0, 2, [(2, (0, 2), (-1)%Z)]); (0, 3, [])];
    lp_result := [(0, 0, [(2, (0, 0), 1%Z)]); (0, 1, [(1, (0, 1), 1%Z)]); (0, 1, [(2, (0, 1), (-1)%Z)]); (1, 0, [(3, (1, 0), 1%Z)]); (0, 2, [])];
    lp_to_collection := []; lp_to_feedback := [] |} u).
  { intros u d. unfold at_time. flds. rewrite <- halves_map. cbn [updates flat_map snd app map fst].
    change (halve 4) with 2. change (halve 2) with 1. change (halve 6) with 3. change (halve 3) with 3. change (halve 1) with 1.
    rewrite !acc_cons', !acc_nil. cbn [fst snd]. change (@dplus Z Diff_Z) with Z.add. change (@dzero Z Diff_Z) with 0%Z.
    repeat match goal with |- context [if ?b then _ else _] => destruct b end; lia. }
  assert (HD : forall d, acc (updates c29_outer) d 1 = if eqb d 4 || eqb d 6 then 1%Z else 0%Z).
  { intros d. cbn [updates flat_map snd app]. rewrite !acc_cons', !acc_nil. cbn [fst snd]. change (tle 0 1) with true. change (tle 1 1) with true. rewrite !andb_true_r.
    destruct (eqb_spec 4 d) as [<-|]; [reflexivity|]. destruct (eqb_spec 6 d) as [<-|]; [reflexivity|].
    destruct (eqb_spec d 4); [lia|]. destruct (eqb_spec d 6); [lia|]. auto. }
  assert (HF : forall t, extensional (halves t)) by (intros t c1 c2 H d; unfold halves; rewrite !H; auto).
  assert (H2 : forall d, repeated (halves 1) 2 (fun d => acc (updates c29_outer) d 1) d = if eqb d 1 || eqb d 3 then 1%Z else 0%Z).
  { intros d. cbn [repeated]. unfold halves. rewrite !HD. 
    destruct (eqb_spec d 1) as [->|]; [reflexivity|]. destruct (eqb_spec d 3) as [->|]; [reflexivity|]. cbn [orb].
    destruct (eqb_spec (2 * (2 * d)) 4); [lia|]. destruct (eqb_spec (2 * (2 * d)) 6); [lia|]. destruct (eqb_spec (2 * d) 4) as [E4|];
      [assert (d = 2) as -> by lia; reflexivity|]. destruct (eqb_spec (2 * d) 6); [lia|]. destruct (eqb_spec d 4) as [->|]; [reflexivity|]. destruct (eqb_spec d 6) as [->|]; [reflexivity|].
    cbn [orb]. destruct (Nat.odd (2 * d)), (Nat.odd d); auto. }
  split; [|split; [reflexivity|split; [exact HF|split; [|split; [exact HA|split; [exact H2|split; [|vm_compute; reflexivity]]]]]]].
  - repeat (apply Forall_cons; [cbn; auto; repeat constructor; cbn; auto; lia|]). constructor.
  - intros u. constructor; flds; auto.
  - intros d. rewrite (HF 1 _ _ H2), H2. unfold halves.
    destruct (eqb_spec d 1) as [->|]; [reflexivity|]. destruct (eqb_spec d 3) as [->|]; [reflexivity|].
    destruct (eqb_spec (2 * d) 1); [lia|]. destruct (eqb_spec (2 * d) 3); [lia|]. cbn [orb]. destruct (Nat.odd d); auto.
Qed.
