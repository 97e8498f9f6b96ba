(** * Glue between batch representations and the specification of batches *)
From Verif Require Import Base.Arrays Base.Collections Spec.BatchSpec Model.LatticeM Model.ConsolidationM
  Proofs.LatticeP Proofs.ConsolidationP Proofs.CursorP Proofs.TrieP.

Section Advance.
Context {D T R : Type} {OD : Ord D} {TT : Time T} {DR : Diff R}.
Definition adv_time (F : list T) (u : D * T * R) : D * T * R := (fst (fst u), advance_by (snd (fst u)) F, snd u).

Lemma acc_adv F (c : list (D * T * R)) d t : beyond F t -> acc (map (adv_time F) c) d t = acc c d t.
Proof.
  intros Ht. induction c as [|[[d' t'] r] c IH]; auto. simpl map. rewrite !acc_cons, IH. simpl. rewrite (advance_by_sound t' F t Ht). reflexivity.
Qed.

Lemma alike_adv F (c : list (D * T * R)) : alike F (map (adv_time F) c) c.
Proof.
  intros d p Hp. induction c as [|[[d' t'] r] c IH]; auto. change (map (adv_time F) ((d', t', r) :: c)) with ([adv_time F (d', t', r)] ++ map (adv_time F) c).
  change ((d', t', r) :: c) with ([(d', t', r)] ++ c). rewrite !total_at_app, IH. f_equal. unfold total_at, adv_time. cbn [filter fst snd].
  rewrite (Hp (advance_by t' F) t'); [destruct (_ && _); auto|]. intros u Hu. apply advance_by_sound; auto.
Qed.

Lemma compaction_ok F (us0 : list (D * T * R)) : compaction_of F us0 (consolidate (A:=D*T) (map (adv_time F) us0)).
Proof.
  set (us := consolidate (map (adv_time F) us0)).
  assert (Hin : forall u, In u us -> exists u0, In u0 us0 /\ fst (adv_time F u0) = fst u).
  { intros u Hu. assert (Hi : In (fst u) (map fst (map (adv_time F) us0))) by (apply consolidate_incl, in_map; exact Hu).
    rewrite map_map in Hi. apply in_map_iff in Hi as (u0 & E & Hi). eauto. }
  split; [apply consolidate_consolidated|]. split; [|split].
  - eapply alike_trans; [apply same_weights_alike, consolidate_weight|apply alike_adv].
  - intros HF u1 u2 H1 H2 Hsame. apply Hin in H1 as (v1 & _ & E1). apply Hin in H2 as (v2 & _ & E2).
    rewrite <- E1, <- E2 in *. simpl in *. rewrite <- (advance_by_idem (snd (fst v1))), <- (advance_by_idem (snd (fst v2))).
    apply advance_by_canonical; auto.
  - intros u Hu. apply Hin in Hu as (u0 & Hu0 & E). exists u0. rewrite <- E. simpl. split; auto. split; auto. apply advance_by_ge.
Qed.
End Advance.

Section Glue.
Context {K V T R : Type} {OK : Ord K} {OV : Ord V} {TT : Time T} {DR : Diff R}.
Implicit Types (tr : trie K V T R).

Lemma wf_length tr : wf_trie tr -> length tr <= length (flat tr) /\ forall e, In e tr -> length (snd e) <= length (flat tr).
Proof.
  intros [_ H]. assert (HV : forall vs : list (V * list (T * R)), wf_vals vs -> forall k : K,
     length vs <= length (flat_map (fun vu => map (fun u : T * R => (k, fst vu, fst u, snd u)) (snd vu)) vs)).
  { intros vs (_ & _ & HF) k. clear H. induction HF as [|[v l] vs [Hn _] HF IH]; simpl; auto. rewrite app_length, map_length.
    simpl in Hn. destruct l; [contradiction Hn; auto|]. simpl. lia. }
  unfold flat. induction H as [|[k vs] tr Hw HF [IH1 IH2]]; simpl.
  - split; auto. intros e [].
  - rewrite app_length. simpl in Hw. pose proof (HV vs Hw k) as HL. split.
    + assert (1 <= length vs) by (destruct Hw as (Hn & _); destruct vs; [contradiction Hn; auto|simpl; lia]). lia.
    + intros e [<-|He]; [simpl; lia|]. apply IH2 in He. lia.
Qed.

Context {St C : Type}.
Lemma reads_as_intro (ops : CursorOps St C K V T R) st c0 tr : presents ops st c0 tr -> wf_trie tr -> reads_as ops st c0 (flat tr).
Proof.
  intros HP HW. split.
  - rewrite trie_of_flat; auto.
  - intros fuel vfuel Hf Hv. exists (vec_of tr). destruct (wf_length _ HW) as [L1 L2]. split; [|apply flat_vec_of].
    apply to_vec_ok; auto; [lia|]. intros e He. apply L2 in He. lia.
Qed.

Lemma reads_as_unique (ops : CursorOps St C K V T R) st c0 us1 us2 : reads_as ops st c0 us1 -> reads_as ops st c0 us2 -> us1 = us2.
Proof.
  intros [_ H1] [_ H2]. destruct (H1 (length us1 + length us2) (length us1 + length us2)) as (v1 & E1 & <-); try lia.
  destruct (H2 (length (flat_vec v1) + length us2) (length (flat_vec v1) + length us2)) as (v2 & E2 & <-); try lia.
  rewrite E1 in E2. inversion E2; reflexivity.
Qed.

Lemma adv_update_adv_time F : adv_update (K:=K) (V:=V) (T:=T) (R:=R) F = adv_time (D:=K*V) F.
Proof. reflexivity. Qed.
End Glue.
