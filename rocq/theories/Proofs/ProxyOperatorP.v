(** reduce with the tactic of proxies. *)
From Verif Require Export Proofs.ReduceP.
From Verif Require Export Proofs.ProxyRetireP.
From Verif Require Import Base.Order.

Section Proxy.
Context {B1 M1 B2 M2 K V1 V2 T R1 R2 H I S : Type} {OK : Ord K} {OV1 : Ord V1} {OV2 : Ord V2} {OH : Ord H} {OI : Ord I} {TT : Time T} {D1 : Diff R1} {D2 : Diff R2} {A2 : Abelian R2}.
Variable bops1 : BatchOps B1 M1 T. Variable contents1 : B1 -> list (K * V1 * T * R1). Variable laws1 : BatchLaws (D:=K*V1) bops1 contents1.
Variable bops2 : BatchOps B2 M2 T. Variable contents2 : B2 -> list (K * V2 * T * R2). Variable laws2 : BatchLaws (D:=K*V2) bops2 contents2.
Variable backend : ReduceBackend B1 B2 T R1 R2 H I S. Variable hash : K -> H. Variable F : K -> list (V1 * R1) -> V2 -> R2.
Hypothesis F_nil : forall k v, F k [] v = dzero.
Variable idle : S -> Prop.
Variable session : ReduceInstance B1 B2 T -> list H -> list (Description T) -> nat -> list H -> meaning (K:=K) (H:=H) (I:=I) V1 -> meaning (K:=K) (H:=H) (I:=I) V2 -> list (list (K * V2 * T * R2)) -> S -> Prop.
Hypothesis HS : serves bops1 contents1 laws1 bops2 contents2 laws2 backend hash F idle session.

Definition reduce_proxy_tactic : tactic_of B1 B2 (list (H * list T) * S) T := fun source output input lower upper held p => proxy_retire backend source output input lower upper held (fst p) (snd p).
Definition proxy_good (p : list (H * list T) * S) : Prop := strictly_sorted (map fst (fst p)) /\ Forall (fun kp => snd kp <> [] /\ strictly_sorted (snd kp)) (fst p) /\ idle (snd p) /\
  forall h ps, In (h, ps) (fst p) -> exists k, hash k = h.
Definition proxy_pends (p : list (H * list T) * S) (k : K) (t : T) : Prop := exists ps, In (hash k, ps) (fst p) /\ In t ps.

Lemma right_for_at k t (ins : list B1) (outs : list B2) : right_for F k t (flat_map contents1 ins) (flat_map contents2 outs) <-> right_at F contents1 contents2 ins outs k t.
Proof.
  unfold right_for, right_at. split.
  - intros G v. unfold FA. rewrite acc_of_key. symmetry. apply G; [apply consolidate_consolidated|]. intros a. rewrite consolidate_weight, weight_values_at. apply acc_of_key.
  - intros G i Ci Wi v. rewrite <- acc_of_key, <- (G v). apply FA_ok; auto. intros a. rewrite acc_of_key. apply Wi.
Qed.
Lemma proxy_retires : retires F bops1 contents1 laws1 bops2 contents2 laws2 reduce_proxy_tactic proxy_good proxy_pends.
Proof.
  split; [exact F_nil|]. intros source output input lower upper held [pending s] (G1 & G2 & G3 & Hh) H1 H2 H3 H4 H5 H6 H7 H8 H9 H10 Hb. cbn [fst snd] in *.
  destruct (proxy_retire_ok bops1 contents1 laws1 bops2 contents2 laws2 backend hash F F_nil idle session HS linear_past source output input lower upper held pending s)
    as (produced & frontier & next & s' & up & E & Q0 & Q1 & Q2 & Q3 & Q4 & Q5 & Q6 & Q7 & Q8 & Q9 & Q10 & Q11); auto.
  - intros t Ht. right. exact Ht.
  - intros h ps p Hp1 Hp2. destruct (Hh h ps Hp1) as (k & <-). apply (H9 k). exists ps. auto.
  - intros k t Bt Lt Hp. apply right_for_at. apply Hb; auto. intros x (ps & Hp1 & Hp2). eapply Hp; eauto.
  - assert (Hn : forall h ps, In (h, ps) next -> exists k, hash k = h).
    { intros h ps Hp. rewrite Forall_forall in Q5. destruct (Q5 _ Hp) as [Nps _]. cbn [snd] in Nps. destruct ps as [|p ps]; [congruence|].
      destruct (Q9 h (p :: ps) p Hp (or_introl eq_refl)) as [(ps' & Hp' & _)|(sd & [(ps' & Hp' & _)|(u & _ & Hu & _)] & _)]; [eapply Hh; eauto|eapply Hh; eauto|eauto]. }
    exists produced, frontier, (next, s'), up. unfold reduce_proxy_tactic, proxy_good, proxy_pends. cbn [fst snd]. split; [exact E|]. split; [repeat split; auto|]. split; [|split; [auto|split; [auto|split; [auto|split; [auto|split; [|split]]]]]].
    + eapply tiles_lo; [exact Q1|]. intros t. split; intros Ht; [apply (ac_from_beyond lower t)|apply (ac_from_beyond lower t) in Ht]; auto.
    + intros k t (ps & Hp1 & Hp2). eapply Q8; eauto.
    + intros k t Lt Bt Hp. apply right_for_at, Q10; auto. intros ps p Hp1 Hp2. apply Hp. eauto.
    + destruct Q11 as [->|(-> & -> & -> & Q11)]; [left|right; auto]. apply Forall_forall. intros t Ht. unfold ac_from in Ht. apply ac_extend_incl in Ht. destruct Ht as [[]|Ht]. apply in_flat_map in Ht. destruct Ht as ([h ps] & Hp1 & Hp2). destruct (Hn h ps Hp1) as (k & <-). exists k, ps. auto.
Qed.
End Proxy.
