(** Proofs about the merge batcher. *)
From Verif Require Export Model.MergeBatcherM Model.ConsolidationM Spec.BatcherSpec Base.Merging Proofs.LatticeP.

(** ** VecMerger *)
Section VecMergerP.
Context {D T R : Type} {OD : Ord D} {TT : Time T} {DR : Diff R}.
Local Notation U := (D * T * R)%type.
Variable at_capacity : list U -> bool.
Hypothesis cap_nil : at_capacity [] = false.

Definition nonempty {X} (c : list X) : Prop := c <> [].
(** The chain invariant: no empty chunks; consolidated when flattened. *)
Definition vm_good (chain : list (list U)) : Prop :=
  Forall nonempty chain /\ consolidated (A:=D*T) (concat chain).

Lemma refill_ok (q : list U) it : Forall nonempty it ->
  let '(q', it') := refill q it in
  q' ++ concat it' = q ++ concat it /\ Forall nonempty it' /\ (q' = [] -> it' = []).
Proof.
  intros Hf. destruct q as [|x q], it as [|c it]; simpl; auto.
  - inversion Hf; subst. split; auto. split; auto. unfold nonempty in *; congruence.
  - split; auto. split; auto; discriminate.
Qed.

Lemma push_result_ok result output :
  let '(result', output') := if at_capacity result then ([], output ++ [result]) else (result, output) in
  concat output' ++ result' = concat output ++ result /\ (Forall nonempty output -> Forall nonempty output').
Proof.
  destruct (at_capacity result) eqn:E; auto. split.
  - rewrite concat_app; simpl; rewrite !app_nil_r; auto.
  - intros Hf. apply Forall_app; split; auto. constructor; auto. intros ->. rewrite cap_nil in E; discriminate.
Qed.

Lemma vm_loop_ok : forall fuel q1 q2 it1 it2 result output,
  length q1 + length (concat it1) + (length q2 + length (concat it2)) <= fuel ->
  (q1 = [] -> it1 = []) -> (q2 = [] -> it2 = []) ->
  Forall nonempty it1 -> Forall nonempty it2 -> Forall nonempty output ->
  exists o, vm_loop at_capacity fuel q1 q2 it1 it2 result output = Some o /\ Forall nonempty o /\
    concat o = concat output ++ result ++ merge2 (A:=D*T) (q1 ++ concat it1) (q2 ++ concat it2).
Proof.
  assert (forall (X : list U) (O : list (list U)), Forall nonempty O ->
            Forall nonempty (match X with [] => O | _ => O ++ [X] end) /\
            concat (match X with [] => O | _ => O ++ [X] end) = concat O ++ X) as Hpush.
  { intros [|x X] O HO; [rewrite app_nil_r; auto|]. split.
    - apply Forall_app; split; auto. constructor; auto. unfold nonempty; congruence.
    - rewrite concat_app; simpl. rewrite app_nil_r; auto. }
  induction fuel as [|fuel IH]; intros q1 q2 it1 it2 result output Hfuel Hq1 Hq2 F1 F2 FO.
  - destruct q1 as [|x q1], q2 as [|y q2]; simpl in Hfuel; try lia.
    simpl. rewrite Hq1, Hq2 by auto. simpl. eexists; split; [reflexivity|].
    rewrite !app_nil_r. destruct (Hpush result output FO) as [A1 A2]. split; auto.
  - destruct q1 as [|[dt1 r1] q1].
    + simpl. rewrite Hq1 by auto. eexists; split; [reflexivity|]. simpl.
      destruct (Hpush result output FO) as [A1 A2]. destruct (Hpush q2 _ A1) as [B1 B2]. split.
      * rewrite !Forall_app; auto.
      * change (merge2 [] (q2 ++ concat it2)) with (q2 ++ concat it2).
        rewrite !concat_app, B2, A2, !app_assoc; auto.
    + destruct q2 as [|[dt2 r2] q2].
      * simpl. rewrite Hq2 by auto. eexists; split; [reflexivity|]. simpl.
        destruct (Hpush result output FO) as [A1 A2]. destruct (Hpush ((dt1, r1) :: q1) _ A1) as [B1 B2]. split.
        -- apply Forall_app; split; [exact B1 | rewrite app_nil_r; exact F1].
        -- rewrite app_nil_r, concat_app, B2, A2, merge2_nil_r, <- !app_assoc; auto.
      * cbn [vm_loop].
        remember (match cmp dt1 dt2 with Lt => _ | Gt => _ | Eq => _ end) as st eqn:Est.
        destruct st as [[q1' q2'] result'].
        pose proof (push_result_ok result' output) as Hp.
        destruct (if at_capacity result' then _ else _) as [result2 output2]. destruct Hp as [Hp1 Hp2].
        pose proof (refill_ok q1' it1 F1) as Hr1.
        destruct (refill q1' it1) as [q1'' it1']. destruct Hr1 as [R1 [G1 N1]].
        pose proof (refill_ok q2' it2 F2) as Hr2.
        destruct (refill q2' it2) as [q2'' it2']. destruct Hr2 as [R2 [G2 N2]].
        assert (length (q1'' ++ concat it1') = length (q1' ++ concat it1)) as L1 by (rewrite R1; auto).
        assert (length (q2'' ++ concat it2') = length (q2' ++ concat it2)) as L2 by (rewrite R2; auto).
        rewrite !app_length in L1, L2. cbn [length] in Hfuel.
        destruct (IH q1'' q2'' it1' it2' result2 output2) as [o [Eo [No Co]]]; auto.
        { destruct (cmp dt1 dt2); inversion Est; subst; cbn [length] in *; lia. }
        exists o; split; auto. split; auto. rewrite Co, R1, R2, app_assoc, Hp1, <- app_assoc. f_equal.
        simpl app. rewrite merge2_cons. destruct (cmp dt1 dt2); inversion Est; subst.
        -- destruct (is_zero (dplus r1 r2)); simpl; auto. rewrite <- app_assoc; auto.
        -- rewrite <- app_assoc; auto.
        -- rewrite <- app_assoc; auto.
Qed.

Lemma vm_merge_ok l1 l2 : vm_good l1 -> vm_good l2 ->
  exists o, vm_merge at_capacity l1 l2 = Some o /\ vm_good o /\
            concat o = merge2 (A:=D*T) (concat l1) (concat l2).
Proof.
  intros [N1 C1] [N2 C2]. unfold vm_merge.
  assert (forall l : list (list U), Forall nonempty l -> let '(q, it) := first_chunk l in
            q ++ concat it = concat l /\ Forall nonempty it /\ (q = [] -> it = [])) as Hfc.
  { intros [|c l] H; simpl; auto. inversion H; subst. repeat split; auto. unfold nonempty in *; congruence. }
  pose proof (Hfc l1 N1) as H1. pose proof (Hfc l2 N2) as H2.
  destruct (first_chunk l1) as [q1 it1]. destruct (first_chunk l2) as [q2 it2].
  destruct H1 as [E1 [F1 G1]], H2 as [E2 [F2 G2]].
  destruct (vm_loop_ok (length (concat l1) + length (concat l2)) q1 q2 it1 it2 [] []) as [o [Eo [No Co]]]; auto.
  { rewrite <- E1, <- E2, !app_length. lia. }
  exists o; split; auto. simpl in Co. rewrite E1, E2 in Co. split; auto. split; auto.
  rewrite Co. apply merge2_consolidated; auto.
Qed.

Definition beyond_u (upper : list T) (u : U) : bool := ac_less_equal upper (snd (fst u)).

Lemma vm_extract_one_ok upper st u :
  let '(frontier, (ready, ship), (keep, kept)) := st in
  let '(frontier', (ready', ship'), (keep', kept')) := vm_extract_one at_capacity upper st u in
  frontier' = (if beyond_u upper u then ac_insert frontier (snd (fst u)) else frontier) /\
  concat ship' ++ ready' = (concat ship ++ ready) ++ (if beyond_u upper u then [] else [u]) /\
  concat kept' ++ keep' = (concat kept ++ keep) ++ (if beyond_u upper u then [u] else []) /\
  (Forall nonempty ship -> Forall nonempty ship') /\ (Forall nonempty kept -> Forall nonempty kept').
Proof.
  destruct st as [[frontier [ready ship]] [keep kept]]. unfold vm_extract_one. fold (beyond_u upper u).
  destruct (beyond_u upper u); rewrite !app_nil_r.
  - pose proof (push_result_ok (keep ++ [u]) kept) as H1. pose proof (push_result_ok ready ship) as H2.
    destruct (if at_capacity (keep ++ [u]) then _ else _) as [keep' kept'].
    destruct (if at_capacity ready then _ else _) as [ready' ship'].
    rewrite app_assoc in H1. tauto.
  - pose proof (push_result_ok keep kept) as H1. pose proof (push_result_ok (ready ++ [u]) ship) as H2.
    destruct (if at_capacity keep then _ else _) as [keep' kept'].
    destruct (if at_capacity (ready ++ [u]) then _ else _) as [ready' ship'].
    rewrite app_assoc in H2. tauto.
Qed.

Arguments vm_extract_one : simpl never.
Lemma fold_nested {X Y} (f : Y -> X -> Y) (ls : list (list X)) y :
  fold_left (fun st l => fold_left f l st) ls y = fold_left f (concat ls) y.
Proof. revert y; induction ls as [|l ls IH]; intros y; simpl; auto. rewrite fold_left_app; auto. Qed.

Lemma vm_extract_fold upper us : forall frontier ready ship keep kept,
  let '(frontier', (ready', ship'), (keep', kept')) :=
    fold_left (vm_extract_one at_capacity upper) us (frontier, (ready, ship), (keep, kept)) in
  frontier' = ac_extend frontier (map (fun u => snd (fst u)) (filter (beyond_u upper) us)) /\
  concat ship' ++ ready' = (concat ship ++ ready) ++ filter (fun u => negb (beyond_u upper u)) us /\
  concat kept' ++ keep' = (concat kept ++ keep) ++ filter (beyond_u upper) us /\
  (Forall nonempty ship -> Forall nonempty ship') /\ (Forall nonempty kept -> Forall nonempty kept').
Proof.
  induction us as [|u us IH]; intros frontier ready ship keep kept; simpl.
  - rewrite !app_nil_r; auto 6.
  - pose proof (vm_extract_one_ok upper (frontier, (ready, ship), (keep, kept)) u) as H1.
    destruct (vm_extract_one at_capacity upper (frontier, (ready, ship), (keep, kept)) u)
      as [[f1 [r1 s1]] [k1 t1]]. destruct H1 as [A1 [A2 [A3 [A4 A5]]]].
    specialize (IH f1 r1 s1 k1 t1). destruct (fold_left _ us _) as [[f2 [r2 s2]] [k2 t2]].
    destruct IH as [B1 [B2 [B3 [B4 B5]]]]. rewrite A1 in B1. rewrite A2 in B2. rewrite A3 in B3.
    destruct (beyond_u upper u); simpl; rewrite <- ?app_assoc, ?app_nil_r in *; auto 8.
Qed.

Lemma nonempty_snoc_ok (c : list U) (l : list (list U)) : Forall nonempty l ->
  Forall nonempty (match c with [] => l | _ => l ++ [c] end) /\
  concat (match c with [] => l | _ => l ++ [c] end) = concat l ++ c.
Proof.
  intros H. destruct c as [|x c]; [rewrite app_nil_r; auto|]. split.
  - apply Forall_app; split; auto. constructor; auto. unfold nonempty; congruence.
  - rewrite concat_app; simpl. rewrite app_nil_r; auto.
Qed.

Lemma consolidated_filter (p : U -> bool) l : consolidated (A:=D*T) l -> consolidated (A:=D*T) (filter p l).
Proof.
  induction l as [|x l IH]; simpl; auto. intros H. apply consolidated_cons_inv in H as [H1 [H2 H3]].
  destruct (p x); auto. apply consolidated_cons; auto. rewrite Forall_forall in *. intros y Hy.
  apply filter_In in Hy; apply H3; tauto.
Qed.

Lemma vm_extract_ok merged upper : vm_good merged ->
  exists frontier ship kept, vm_extract at_capacity merged upper = Some (frontier, ship, kept) /\
    vm_good ship /\ vm_good kept /\
    frontier = ac_from (map (fun u => snd (fst u)) (concat kept)) /\
    concat ship = filter (fun u => negb (beyond_u upper u)) (concat merged) /\
    concat kept = filter (beyond_u upper) (concat merged).
Proof.
  intros [N C]. unfold vm_extract. rewrite fold_nested.
  pose proof (vm_extract_fold upper (concat merged) [] [] [] [] []) as H.
  destruct (fold_left _ (concat merged) _) as [[f [r s]] [k t]].
  destruct H as [A1 [A2 [A3 [A4 A5]]]]. simpl in A2, A3.
  destruct (nonempty_snoc_ok r s (A4 (Forall_nil _))) as [B1 B2].
  destruct (nonempty_snoc_ok k t (A5 (Forall_nil _))) as [B3 B4].
  eexists _, _, _; split; [reflexivity|]. unfold vm_good. rewrite B2, B4, A2, A3. 
  repeat split; auto; try apply consolidated_filter; auto.
Qed.
End VecMergerP.

(** ** The batcher, for any merger meeting this contract *)
Section BatcherP.
Context {D T R : Type} {OD : Ord D} {TT : Time T} {DR : Diff R}.
Local Notation U := (D * T * R)%type.
Context {Chunk : Type}.
Variable m_merge : list Chunk -> list Chunk -> option (list Chunk).
Variable m_extract : list Chunk -> list T -> option (list T * list Chunk * list Chunk).
Variable m_len : Chunk -> nat.
Variable upds : Chunk -> list U.
Definition flat (chain : list Chunk) : list U := concat (map upds chain).
Variable good : list Chunk -> Prop.
Hypothesis good_nil : good [].
Hypothesis good_consolidated : forall c, good c -> consolidated (A:=D*T) (flat c).
Hypothesis merge_ok : forall a b, good a -> good b ->
  exists o, m_merge a b = Some o /\ good o /\ same_weights (A:=D*T) (flat o) (flat a ++ flat b).
Hypothesis extract_ok : forall m upper, good m ->
  exists f r k, m_extract m upper = Some (f, r, k) /\ good r /\ good k /\
    antichain f /\ (forall t, beyond f t <-> beyond (map time_of (flat k)) t) /\
    same_weights (A:=D*T) (flat r) (filter (fun u => negb (beyondb upper (time_of u))) (flat m)) /\
    same_weights (A:=D*T) (flat k) (filter (fun u => beyondb upper (time_of u)) (flat m)).

Definition chains_flat (chains : list (nat * list Chunk)) : list U := concat (map (fun wc => flat (snd wc)) chains).
Definition chains_good (chains : list (nat * list Chunk)) : Prop := Forall (fun wc => good (snd wc)) chains.

Lemma merge_top w1 l1 w2 l2 rest o : same_weights (A:=D*T) (flat o) (flat l1 ++ flat l2) ->
  same_weights (A:=D*T) (chains_flat (chain_push m_len rest o)) (chains_flat ((w1, l1) :: (w2, l2) :: rest)).
Proof.
  intros H a. unfold chains_flat, chain_push; simpl. rewrite app_assoc, !weight_app, H, weight_app; auto.
Qed.

Lemma insert_loop_ok : forall fuel chains, length chains <= S fuel -> chains_good chains ->
  exists chains', insert_loop m_merge m_len fuel chains = Some chains' /\ chains_good chains' /\
    same_weights (A:=D*T) (chains_flat chains') (chains_flat chains).
Proof.
  induction fuel as [|fuel IH]; intros chains Hl Hg.
  - destruct chains as [|[w1 l1] [|[w2 l2] rest]]; simpl in *; try lia; eexists; repeat split; auto.
  - destruct chains as [|[w1 l1] [|[w2 l2] rest]]; simpl; try (eexists; repeat split; auto; fail).
    destruct (w2 / 2 <=? w1); [|eexists; repeat split; auto].
    inversion Hg as [|? ? G1 Hg1]; subst. inversion Hg1 as [|? ? G2 Hg2]; subst.
    destruct (merge_ok l1 l2) as [o [Eo [Go Wo]]]; auto. rewrite Eo.
    destruct (IH (chain_push m_len rest o)) as [c' [E' [G' W']]]; [simpl in *; lia | constructor; auto |].
    exists c'; repeat split; auto. eapply same_weights_trans; [exact W' | apply merge_top; auto].
Qed.

Lemma seal_loop_ok : forall fuel chains, length chains <= S fuel -> chains_good chains ->
  exists chains', seal_loop m_merge m_len fuel chains = Some chains' /\ chains_good chains' /\ length chains' <= 1 /\
    same_weights (A:=D*T) (chains_flat chains') (chains_flat chains).
Proof.
  induction fuel as [|fuel IH]; intros chains Hl Hg.
  - destruct chains as [|[w1 l1] [|[w2 l2] rest]]; simpl in *; try lia; eexists; repeat split; auto.
  - destruct chains as [|[w1 l1] [|[w2 l2] rest]]; simpl; try (eexists; repeat split; auto; fail).
    inversion Hg as [|? ? G1 Hg1]; subst. inversion Hg1 as [|? ? G2 Hg2]; subst.
    destruct (merge_ok l1 l2) as [o [Eo [Go Wo]]]; auto. rewrite Eo.
    destruct (IH (chain_push m_len rest o)) as [c' [E' [G' [L' W']]]]; [simpl in *; lia | constructor; auto |].
    exists c'; repeat split; auto. eapply same_weights_trans; [exact W' | apply merge_top; auto].
Qed.

Lemma mb_push_ok (b : batcher (T:=T) (Chunk:=Chunk)) c : chains_good (mb_chains b) -> good [c] ->
  exists b', mb_push m_merge m_len b c = Some b' /\ chains_good (mb_chains b') /\ mb_lower b' = mb_lower b /\
    same_weights (A:=D*T) (chains_flat (mb_chains b')) (chains_flat (mb_chains b) ++ upds c).
Proof.
  intros Hg Hc. unfold mb_push, insert_chain.
  destruct (insert_loop_ok (length (chain_push m_len (mb_chains b) [c])) (chain_push m_len (mb_chains b) [c]))
    as [c' [E [G W]]]; [lia | constructor; auto |].
  rewrite E. eexists; split; [reflexivity|]; simpl. repeat split; auto.
  eapply same_weights_trans; [exact W|]. intros a. unfold chain_push, chains_flat; simpl. unfold flat; simpl.
  rewrite app_nil_r, !weight_app. apply dplus_comm.
Qed.

Lemma beyond_times (l : list U) t : beyond (map time_of l) t <-> exists u, In u l /\ tle (time_of u) t = true.
Proof.
  unfold beyond. split.
  - intros [f [Hf Ht]]. apply in_map_iff in Hf as [u [<- Hu]]. eauto.
  - intros [u [Hu Ht]]. exists (time_of u); split; auto. apply in_map; auto.
Qed.

Lemma mb_seal_ok (b : batcher (T:=T) (Chunk:=Chunk)) upper pending : chains_good (mb_chains b) ->
  same_weights (A:=D*T) (chains_flat (mb_chains b)) pending ->
  exists b' readied desc, mb_seal m_merge m_extract m_len b upper = Some (b', readied, desc) /\
    chains_good (mb_chains b') /\ mb_lower b' = upper /\
    same_weights (A:=D*T) (chains_flat (mb_chains b')) (filter (fun u => beyondb upper (time_of u)) pending) /\
    seals_correctly pending (mb_lower b) upper (flat readied) desc (mb_frontier b').
Proof.
  intros Hg Hw. unfold mb_seal.
  destruct (seal_loop_ok (length (mb_chains b)) (mb_chains b)) as [c' [E [G [L W]]]]; auto. rewrite E.
  set (mc := match c' with [] => ([], []) | (_, c) :: rest => (c, rest) end).
  assert (exists m, mc = (m, []) /\ good m /\ same_weights (A:=D*T) (flat m) pending) as [m [Em [Gm Wm]]].
  { unfold mc. assert (same_weights (A:=D*T) (chains_flat c') pending) as Wp by (eapply same_weights_trans; eauto).
    destruct c' as [|[w c] [|? ?]]; simpl in L; [| |lia].
    - exists []; repeat split; auto.
    - exists c; repeat split; auto. inversion G; auto.
      intros a; rewrite <- Wp. unfold chains_flat; simpl. rewrite app_nil_r; auto. }
  rewrite Em. destruct (extract_ok m upper Gm) as [f [r [k [Ex [Gr [Gk [Af [Bf [Wr Wk]]]]]]]]]. rewrite Ex.
  assert (forall a, weight (A:=D*T) (flat k) a = if beyondb upper (snd a) then weight (A:=D*T) pending a else dzero) as Hk.
  { intros a. rewrite Wk. rewrite (weight_filter (A:=D*T) (fun x => beyondb upper (snd x)) (flat m) a), Wm. auto. }
  assert (forall a, weight (A:=D*T) (flat r) a = if beyondb upper (snd a) then dzero else weight (A:=D*T) pending a) as Hr.
  { intros a. rewrite Wr. rewrite (weight_filter (A:=D*T) (fun x => negb (beyondb upper (snd x))) (flat m) a), Wm.
    destruct (beyondb upper (snd a)); auto. }
  assert (chains_flat (match k with [] => [] | _ => chain_push m_len [] k end) = flat k) as Hck.
  { destruct k as [|x k]; auto. unfold chains_flat, chain_push; simpl. rewrite app_nil_r; auto. }
  eexists _, r, _; split; [reflexivity|]; cbn [mb_chains mb_lower mb_frontier]. repeat split; auto.
  - destruct k; [constructor | constructor; auto; constructor].
  - rewrite Hck. intros a. rewrite Hk.
    rewrite (weight_filter (A:=D*T) (fun x => beyondb upper (snd x)) pending a). auto.
  - apply (proj1 (good_consolidated r Gr)).
  - apply (proj2 (good_consolidated r Gr)).
  - intros d t. apply (Hr (d, t)).
  - intros Hb. apply Bf, beyond_times in Hb as [u [Hu Ht]]. exists (fst (fst u)), (time_of u).
    assert (weight (A:=D*T) (flat k) (fst u) <> dzero) as Hnz.
    { apply (consolidated_in_weight _ _ (good_consolidated k Gk)). apply in_map; auto. }
    rewrite Hk in Hnz. unfold time_of in *. destruct (beyondb upper (snd (fst u))) eqn:Eb; [|congruence].
    destruct u as [[? ?] ?]; auto.
  - intros [d [t' [Ht [Hb Hnz]]]]. apply Bf, beyond_times.
    assert (In (d, t') (map fst (flat k))) as Hin.
    { apply (consolidated_in_weight _ _ (good_consolidated k Gk)). rewrite Hk; simpl. rewrite Hb; auto. }
    apply in_map_iff in Hin as [u [Eu Hu]]. exists u; split; auto. unfold time_of; rewrite Eu; auto.
Qed.

Definition op_spec (o : mb_op (T:=T) (Chunk:=Chunk)) : bop (D:=D) (T:=T) (R:=R) :=
  match o with MPush c => OPush (upds c) | MSeal up => OSeal up end.
Definition op_good (o : mb_op (T:=T) (Chunk:=Chunk)) : Prop := match o with MPush c => good [c] | MSeal _ => True end.

Lemma mb_run_ok ops : forall (b : batcher (T:=T) (Chunk:=Chunk)) pending, Forall op_good ops -> chains_good (mb_chains b) ->
  same_weights (A:=D*T) (chains_flat (mb_chains b)) pending ->
  exists b' outs, mb_run m_merge m_extract m_len b ops = Some (b', outs) /\
    history_correct pending (mb_lower b) (map op_spec ops)
      (map (fun o => (flat (fst (fst o)), snd (fst o), snd o)) outs).
Proof.
  induction ops as [|[c|up] ops IH]; intros b pending Ho Hg Hw; simpl.
  - exists b, []; split; auto. constructor.
  - inversion Ho as [|? ? Hc Ho']; subst.
    destruct (mb_push_ok b c Hg Hc) as [b1 [E1 [G1 [L1 W1]]]]. rewrite E1.
    destruct (IH b1 (pending ++ upds c)) as [b' [outs [E' H']]]; auto.
    { eapply same_weights_trans; [exact W1|]. apply same_weights_app; auto. apply same_weights_refl. }
    exists b', outs; split; auto. rewrite L1 in H'. constructor; auto.
  - inversion Ho as [|? ? _ Ho']; subst.
    destruct (mb_seal_ok b up pending Hg Hw) as [b1 [r [desc [E1 [G1 [L1 [W1 S1]]]]]]]. rewrite E1.
    destruct (IH b1 _ Ho' G1 W1) as [b' [outs [E' H']]]. rewrite E'.
    eexists _, _; split; [reflexivity|]. simpl. rewrite L1 in H'. econstructor; eauto.
Qed.

Lemma mb_run_new_ok ops : Forall op_good ops ->
  exists b' outs, mb_run m_merge m_extract m_len mb_new ops = Some (b', outs) /\
    history_correct [] [tmin] (map op_spec ops) (map (fun o => (flat (fst (fst o)), snd (fst o), snd o)) outs).
Proof. intros H. apply (mb_run_ok ops mb_new []); auto. constructor. intros a; auto. Qed.

(** The ladder: each chain weighs less than half of the one below it, so their number is logarithmic. *)
Inductive ladder : list (nat * list Chunk) -> Prop :=
| ladder_nil : ladder []
| ladder_one : forall c, ladder [c]
| ladder_cons : forall c1 c2 l, fst c1 < fst c2 / 2 -> ladder (c2 :: l) -> ladder (c1 :: c2 :: l).

Lemma insert_loop_ladder : forall fuel c chains chains', ladder chains ->
  insert_loop m_merge m_len fuel (c :: chains) = Some chains' -> ladder chains'.
Proof.
  induction fuel as [|fuel IH]; intros [w1 l1] chains chains' Hl H; simpl in H.
  - destruct chains as [|c2 rest]; inversion H; subst; constructor.
  - destruct chains as [|[w2 l2] rest]; [inversion H; subst; constructor|].
    destruct (w2 / 2 <=? w1) eqn:E.
    + destruct (m_merge l1 l2) as [o|]; [|discriminate].
      refine (IH _ rest chains' _ H). inversion Hl; subst; auto. constructor.
    + inversion H; subst. constructor; auto. apply Nat.leb_gt in E; auto.
Qed.

Lemma mb_push_ladder (b : batcher (T:=T) (Chunk:=Chunk)) c b' : ladder (mb_chains b) -> mb_push m_merge m_len b c = Some b' -> ladder (mb_chains b').
Proof.
  unfold mb_push, insert_chain. intros Hl H.
  destruct (insert_loop _ _ _ _) as [c'|] eqn:E; [|discriminate]. inversion H; subst; simpl.
  eapply insert_loop_ladder; [|exact E]; auto.
Qed.

Lemma mb_seal_ladder (b : batcher (T:=T) (Chunk:=Chunk)) up b' r d : mb_seal m_merge m_extract m_len b up = Some (b', r, d) -> ladder (mb_chains b').
Proof.
  unfold mb_seal. intros H. destruct (seal_loop _ _ _ _) as [c'|] eqn:E; [|discriminate].
  assert (length c' <= 1) as Hlen.
  { clear H. revert E. generalize (length (mb_chains b)) as fuel. generalize (mb_chains b) as ch. intros ch fuel; revert ch.
    induction fuel as [|fuel IH]; intros ch E; simpl in E.
    - destruct ch as [|? [|? ?]]; inversion E; subst; simpl; auto.
    - destruct ch as [|[? ?] [|[? ?] ?]]; try (inversion E; subst; simpl; auto; fail).
      destruct (m_merge _ _); [|discriminate]. eapply IH; eauto. }
  destruct c' as [|[w c] [|? ?]]; simpl in Hlen; [| |lia].
  - destruct (m_extract _ _) as [[[f rr] k]|]; [|discriminate]. inversion H; subst; simpl. destruct k; constructor.
  - destruct (m_extract _ _) as [[[f rr] k]|]; [|discriminate]. inversion H; subst; simpl. destruct k; constructor.
Qed.

Lemma ladder_pow l : ladder l -> forall k c0, nth_error l 0 = Some c0 -> 2 ^ k <= fst c0 + 2 ->
  forall i c, nth_error l i = Some c -> 2 ^ (k + i) <= fst c + 2.
Proof.
  induction 1 as [|c1|c1 c2 l Hc Hl IH]; intros k c0 H0 Hk i c Hi.
  - discriminate.
  - inversion H0; subst. destruct i as [|[|i]]; simpl in Hi; try discriminate. inversion Hi; subst.
    rewrite Nat.add_0_r; auto.
  - inversion H0; subst. destruct i as [|i]; simpl in Hi.
    + inversion Hi; subst. rewrite Nat.add_0_r; auto.
    + replace (k + S i) with (S k + i) by lia. apply (IH (S k) c2 eq_refl); auto.
      pose proof (Nat.div_mod (fst c2) 2). rewrite Nat.pow_succ_r'. lia.
Qed.

Lemma ladder_bound l i c : ladder l -> nth_error l i = Some c -> 2 ^ (S i) <= fst c + 2.
Proof.
  intros H Hi. destruct l as [|c0 l]; [destruct i; discriminate|].
  apply (ladder_pow _ H 1 c0 eq_refl) in Hi; auto. simpl; lia.
Qed.
End BatcherP.
