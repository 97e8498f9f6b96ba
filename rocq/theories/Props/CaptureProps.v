(** * C34: captured collections are reconstructed exactly *)
From Verif Require Import Proofs.CaptureP.
From Coq Require Import List ZArith Lia.
Import ListNotations.

Section C34.
Context {D T R : Type} {OD : Ord D} {TT : Time T} {OR : Ord R}.
Notation update := (D * T * R)%type.

(** From any messages about a set of updates, repeated, overlapping and in any order, a reader gets
    strictly advancing frontiers and with each exactly the updates it passes, each once. *)
Theorem c34_reader_never_wrong (all : list update) (ms : list (message D T R)) :
  NoDup all -> Forall (message_about all) ms ->
  reports all [tmin] (snd (iter_all iter_new ms)).
Proof. intros HN HF. destruct (ok_all all HN ms [] [] [] iter_new (ok_new all) HF) as (seen & _ & HR & _). exact HR. Qed.

(** If moreover every update arrives and the statements reach a frontier, so does the reader. *)
Theorem c34_reader_complete (all : list update) (ms : list (message D T R)) F :
  NoDup all -> Forall (message_about all) ms ->
  (forall u, In u all -> exists us, In (Updates us) ms /\ In u us) -> reaches ms F ->
  forall t, beyond (last_frontier (snd (iter_all iter_new ms))) t -> beyond F t.
Proof.
  intros HN HF HD HR t Ht. destruct (ok_all all HN ms [] [] [] iter_new (ok_new all) HF) as (seen & K & _ & HL).
  apply (ok_complete all HN _ _ _ _ _ K HR HD). apply HL. exact Ht.
Qed.
(** What has been published is all there is before the last frontier, without repetition. *)
Theorem c34_published (all : list update) outs F : NoDup all -> reports all F outs ->
  NoDup (concat (map fst outs)) /\
  forall u, In u (concat (map fst outs)) <-> In u all /\ beyond F (snd (fst u)) /\ ~ beyond (last (map snd outs) F) (snd (fst u)).
Proof.
  intros HN. revert F. induction outs as [|[us G] outs IH]; intros F H; cbn [map concat fst snd].
  - split; [constructor|]. intros u. cbn [last In]. tauto.
  - cbn [reports] in H. destruct H as (H1 & H2 & H3 & H4 & H5). destruct (IH G H5) as [I1 I2]. rewrite last_cons. split.
    + apply NoDup_app_intro; auto. intros x Hx Hy. apply H4 in Hx. apply I2 in Hy. tauto.
    + intros u. rewrite in_app_iff, H4, I2.
      assert (Hl : beyond (last (map snd outs) G) (snd (fst u)) -> beyond G (snd (fst u))).
      { clear - H5. revert G H5. induction outs as [|[us' G'] outs IH]; intros G H Hb; auto. cbn [map snd] in Hb. rewrite last_cons in Hb. cbn [reports] in H.
        destruct H as (H1 & _ & _ & _ & H). apply H1. apply (IH G' H Hb). }
      destruct (beyond_dec G (snd (fst u))); specialize (H1 (snd (fst u))); tauto.
Qed.

(** [next] is what the full run is made of. *)
Theorem c34_next (s : Iter D T R) ms :
  match iter_next s ms with
  | Some (out, s', rest) => snd (iter_all s ms) = out :: snd (iter_all s' rest) /\ fst (iter_all s ms) = fst (iter_all s' rest)
  | None => snd (iter_all s ms) = []
  end.
Proof.
  revert s. induction ms as [|m ms IH]; intros s; cbn [iter_next iter_all]; auto. destruct (iter_message s m) as [s' [out|]]; [|apply IH].
  destruct (iter_all s' ms) as [s2 outs]. auto.
Qed.

(** ** Writers *)
(** The statements produced by the writer follow each other from the minimum to its frontier, are
    truthful about all updates that do arrive, and reach the sink in order. *)
Theorem c34_statements (acts : list (list update * list T * list bool)) : legal_activations [tmin] acts ->
  let r := pw_run (@pw_new D T R TT) acts in
  exists made, snd r ++ pw_queue (fst r) = made /\ consecutive [tmin] made (pw_frontier (fst r)) /\
  same_future (last (map (fun a => snd (fst a)) acts) [tmin]) (pw_frontier (fst r)) /\
  forall p, In (Statement p) made -> truthful (flat_map (fun a => fst (fst a)) acts) p.
Proof.
  intros HL r. destruct (pw_run_ok acts [] pw_new pw_new_ok HL) as (made & H1 & H2 & H3 & H4). exists made. split; [exact H1|split; [exact H2|split; [exact H3|]]].
  intros p Hp. specialize (H4 [] (Forall_nil _) p Hp). rewrite app_nil_r in H4. cbn [app] in H4.
  assert (E : arrived acts = flat_map (fun a => fst (fst a)) acts); [|rewrite <- E; exact H4].
  clear. induction acts as [|[[us F] an] acts IH]; auto. cbn [arrived flat_map fst snd]. rewrite IH. auto.
Qed.
(** Round trip: the updates written, in any batches, order and repetition, with the statements written,
    are reconstructed up to the writer's frontier, if no statement is left in its queue. *)
Theorem c34_round_trip (acts : list (list update * list T * list bool)) (ms : list (message D T R)) :
  let all := flat_map (fun a => fst (fst a)) acts in
  let r := pw_run (@pw_new D T R TT) acts in
  legal_activations [tmin] acts -> NoDup all -> pw_queue (fst r) = [] ->
  (forall us, In (Updates us) ms -> incl us all /\ NoDup us) ->
  (forall u, In u all -> exists us, In (Updates us) ms /\ In u us) ->
  (forall p, In (Statement p) ms <-> In (Statement p) (snd r)) ->
  reports all [tmin] (snd (iter_all iter_new ms)) /\
  forall t, beyond (last_frontier (snd (iter_all iter_new ms))) t -> beyond (pw_frontier (fst r)) t.
Proof.
  intros all r HL HN HQ HU HD HP. destruct (c34_statements acts HL) as (made & E & HC & HS & HT). fold r in E, HC, HS. rewrite HQ, app_nil_r in E. subst made. fold all in HT.
  assert (HF : Forall (message_about all) ms).
  { apply Forall_forall. intros [us|p] Hm; cbn [message_about]; [apply HU; auto|apply HT, HP; auto]. }
  split; [apply c34_reader_never_wrong; auto|].
  assert (HI : incl (snd r) ms).
  { intros [us|p] Hm; [|apply HP; auto]. exfalso. clear - HC Hm. revert HC Hm. generalize (snd r) as l, [tmin] as F.
    induction l as [|[us'|p'] l IH]; intros F HC Hm; cbn [consecutive] in HC; [destruct Hm|auto|]. destruct Hm as [E|Hm]; [discriminate|]. apply (IH _ (proj2 HC) Hm). }
  destruct (consecutive_reaches (snd r) [tmin] _ ms HC HI) as (G & HG & HGs); [exists [tmin]; split; [constructor|intros t; reflexivity]|].
  intros t Ht. apply HGs. apply (c34_reader_complete all ms G HN HF HD HG t Ht).
Qed.
End C34.
Print Assumptions c34_reader_never_wrong.
Print Assumptions c34_reader_complete.
Print Assumptions c34_published.
Print Assumptions c34_next.
Print Assumptions c34_statements.
Print Assumptions c34_round_trip.

(** ** Concrete runs *)
Definition c34_a : nat * nat * Z := (7, 0, 1%Z).
Definition c34_b : nat * nat * Z := (8, 0, 1%Z).
Definition c34_c : nat * nat * Z := (9, 1, 1%Z).
Definition c34_acts : list (list (nat * nat * Z) * list nat * list bool) :=
  [([c34_a], [0], []); ([c34_b; c34_c], [1], [false]); ([], [2], [])].
Example c34_legal_ex : legal_activations [0] c34_acts.
Proof.
  assert (A : forall a : nat, antichain [a]) by (intros a; apply (ac_from_antichain [a])).
  assert (B : forall a t : nat, a <= t -> beyond [a] t) by (intros a t H; exists a; split; [left; auto|apply nat_tle; auto]).
  assert (C : forall a b : nat, a <= b -> forall t, beyond [b] t -> beyond [a] t) by (intros a b H t (f & [<-|[]] & Hf); apply B; apply nat_tle in Hf; lia).
  cbn [legal_activations c34_acts]. split; [auto|split; [|split; [|split; [auto|split; [|split; [|split; [auto|split; [constructor|split; [|exact I]]]]]]]]]; try (apply C; lia).
  - constructor; [apply B; auto|constructor].
  - constructor; [apply B; auto|constructor; [apply B; cbn; lia|constructor]].
Qed.
Definition c34_p1 : Progress nat := {| p_lower := [0]; p_upper := [1]; p_counts := [(0, 2)] |}.
Definition c34_p2 : Progress nat := {| p_lower := [1]; p_upper := [2]; p_counts := [(1, 1)] |}.
Example c34_sent_ex : snd (pw_run pw_new c34_acts) = [Statement c34_p1; Statement c34_p2].
Proof. reflexivity. Qed.
(** messages delivered out of order and repeatedly *)
Example c34_reader_ex :
  snd (iter_all iter_new [Statement c34_p2; Updates [c34_c; c34_a]; Statement c34_p1; Updates [c34_a; c34_b]; Updates [c34_b]; Statement c34_p1])
  = [([c34_c; c34_a; c34_b], [2])] /\
  snd (iter_all iter_new [Statement c34_p1; Updates [c34_c; c34_a]; Updates [c34_a]; Updates [c34_a; c34_b]; Updates [c34_b]; Statement c34_p2])
  = [([c34_a; c34_b], [1]); ([c34_c], [2])].
Proof. split; reflexivity. Qed.

(** ** Limits *)
(** An update repeated within one message is counted twice: the frontier passes an update that has not
    arrived, and when it does it is discarded. *)
Theorem c34_repeats_within_a_message_refuted :
  exists (all : list (nat * nat * Z)) ms, NoDup all /\
    (forall us, In (Updates us) ms -> incl us all) /\ (forall p, In (Statement p) ms -> truthful all p) /\
    (forall u, In u all -> exists us, In (Updates us) ms /\ In u us) /\
    ~ reports all [tmin] (snd (iter_all iter_new ms)) /\
    exists u, In u all /\ ~ In u (concat (map fst (snd (iter_all iter_new ms)))) /\ ~ beyond (last_frontier (snd (iter_all iter_new ms))) (snd (fst u)).
Proof.
  exists [c34_a; c34_b], [Updates [c34_a; c34_a]; Statement c34_p1; Updates [c34_b]]. 
  assert (E : snd (iter_all iter_new [Updates [c34_a; c34_a]; Statement c34_p1; Updates [c34_b]]) = [([c34_a], [1])]) by reflexivity. rewrite E.
  split; [repeat constructor; cbn; intuition discriminate|]. split; [|split; [|split; [|split]]].
  - intros us [H|[H|[H|[]]]]; inversion H; intros x Hx; cbn in *; intuition.
  - intros p [H|[H|[H|[]]]]; inversion H. split; [repeat constructor; cbn; tauto|]. intros t c. cbn [c34_p1 p_counts p_lower p_upper]. split.
    + intros [H2|[]]; inversion H2; subst. split; [exists 0; split; [left; reflexivity|reflexivity]|split; [|split; [reflexivity|lia]]]. intros (f & [<-|[]] & Hf). discriminate.
    + intros (_ & H2 & -> & H3). destruct t as [|t]; [left; reflexivity|]. destruct H2. exists 1. split; [left; reflexivity|apply nat_tle; lia].
  - intros u [<-|[<-|[]]]; [exists [c34_a; c34_a]|exists [c34_b]]; cbn; auto.
  - cbn [reports]. intros (_ & _ & _ & H & _). specialize (H c34_b). destruct H as [_ H]. assert (Hx : In c34_b [c34_a]); [|cbn in Hx; intuition discriminate].
    apply H. split; [right; left; auto|split; [exists 0; split; [left; reflexivity|reflexivity]|]]. intros (f & [<-|[]] & Hf). discriminate.
  - exists c34_b. split; [right; left; auto|split; [cbn; intuition discriminate|]]. intros (f & [<-|[]] & Hf). discriminate.
Qed.
Print Assumptions c34_repeats_within_a_message_refuted.

(** The writer of progress statements stalls: if the sink asks once to retry later, and the input
    frontier does not advance any more, the queued statement is never sent, however often the operator is
    activated and although the sink would accept it. *)
Theorem c34_progress_writer_stalls_refuted :
  exists act : list (nat * nat * Z) * list nat * list bool, exists s,
  legal_activations [tmin] [act] /\ pw_run pw_new [act] = (s, []) /\ pw_queue s <> [] /\
  forall n, pw_run s (repeat ([], snd (fst act), []) n) = (s, []).
Proof.
  exists ([], [], [false]). eexists. split; [|split; [reflexivity|split; [discriminate|]]].
  - cbn. repeat split; try constructor. intros t (f & [] & _).
  - induction n as [|n IH]; [reflexivity|]. cbn [repeat fst snd] in *. cbn [pw_run]. cbn [pw_step pw_frontier ac_le forallb ac_eqb]. cbn. cbn in IH. rewrite IH. reflexivity.
Qed.
Print Assumptions c34_progress_writer_stalls_refuted.
