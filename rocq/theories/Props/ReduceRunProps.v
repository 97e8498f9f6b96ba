(** * C23: concrete runs of reduce, and a counterexample at times whose past is not totally ordered *)
From Coq Require Import Bool.
From Verif Require Import Spec.ReduceSpec Proofs.ReduceP Proofs.SpineInstP Proofs.SpineP Proofs.ReadableInstP Model.OrdNeuM Props.OrdNeuProps Props.ReduceProps Proofs.LatticeP Base.Collections Base.Order.

(** ** Runs of three activations: two batches of input, and then the end of the input *)
Section Run.
Context {T : Type} {TT : Time T}.
Notation B := (OrdValBatch nat nat T Z).
Local Notation bops := (ov_batch_ops (K:=nat) (V:=nat) (T:=T) (R:=Z)).
Lemma c23_implements : implements bops ov_contents ov_laws bops ov_contents ov_laws (ov_ops (K:=nat) (V:=nat) (T:=T) (R:=Z)) ovc_new ov_ops ovc_new ovb_seal.
Proof.
  split; [apply ov_readable|split; [apply ov_readable|]]. intros chain d Hc.
  assert (Hb : ov_batch (ovb_seal chain d)) by (apply (ovB_built (concat chain)); auto). split; [exact Hb|].
  destruct (c10_val_batch_reads_back _ _ _ _ _ _ _ _ _ (concat chain) chain d Hc eq_refl) as (HR & _ & Hd). split; [apply ov_contents_reads; auto|exact Hd].
Qed.
Definition c23_b (us : list (nat * nat * T * Z)) (lo up : list T) : B := ovb_seal [us] {| d_lower := lo; d_upper := up; d_since := [tmin] |}.
Lemma c23_b_is us lo up : consolidated (A:=nat*nat*T) us -> bl_ok _ _ ov_laws (c23_b us lo up) /\ ov_contents (c23_b us lo up) = us /\
  lower_of bops (c23_b us lo up) = lo /\ upper_of bops (c23_b us lo up) = up /\ since_of bops (c23_b us lo up) = [tmin].
Proof.
  intros HC. destruct (proj2 (proj2 c23_implements) [us] {| d_lower := lo; d_upper := up; d_since := [tmin] |}) as (H1 & H2 & H3); [cbn; rewrite app_nil_r; auto|].
  split; [exact H1|]. split; [cbn in H2; rewrite app_nil_r in H2; exact H2|]. unfold lower_of, upper_of, since_of, c23_b. rewrite H3. auto.
Qed.
Variables (us1 us2 : list (nat * nat * T * Z)) (f1 f2 : T).
Definition c23_b1 := c23_b us1 [tmin] [f1]. Definition c23_b2 := c23_b us2 [f1] [f2]. Definition c23_b3 := c23_b [] [f2] [].
Definition c23_spine (bs : list B) := match s_run bops (with_effort 1) (map (fun b => SInsert b) bs) with Some s => s | None => with_effort 0 end.
Definition c23_side bs up q F : side B (OrdValMerger nat nat T Z) T :=
  {| sd_spine := c23_spine bs; sd_hist := bs; sd_upper := up; sd_logical := [tmin]; sd_physical := [tmin]; sd_flight := q; sd_front := F |}.
(** for any tactic, and its state at first *)
Definition c23_runs {P} (tac : tactic_of B B P T) (p0 : P) :=
  w <- r_trace bops 1;
  ' (st, w, o1, l1) <- r_activate bops bops tac (c23_spine [c23_b1]) [(tmin, [c23_b1])] [f1] None (r_start p0 ([tmin], [tmin])) w;
  ' (st, w, o2, l2) <- r_activate bops bops tac (c23_spine [c23_b1; c23_b2]) [(f1, [c23_b2])] [f2] None st w;
  ' (st, w, o3, l3) <- r_activate bops bops tac (c23_spine [c23_b1; c23_b2; c23_b3]) [] [] None st w;
  Some (st, w, (o1 ++ o2) ++ o3, (l1 ++ l2) ++ l3).
Definition c23_tactic logic : tactic_of B B (list (nat * T)) T := tactic bops bops ov_ops ovc_new ov_ops ovc_new ovb_seal logic.
Definition c23_three logic := c23_runs (c23_tactic logic) [].
Definition c23_good : Prop := consolidated (A:=nat*nat*T) us1 /\ consolidated (A:=nat*nat*T) us2 /\ tle tmin f1 = true /\ f1 <> tmin /\ tle f1 f2 = true /\ f1 <> f2 /\
  Forall (fun u => tle f1 (snd (fst u)) = false) us1 /\ Forall (fun u => tle f1 (snd (fst u)) = true /\ tle f2 (snd (fst u)) = false) us2 /\
  c23_spine [c23_b1] <> with_effort 0 /\ c23_spine [c23_b1; c23_b2] <> with_effort 0 /\ c23_spine [c23_b1; c23_b2; c23_b3] <> with_effort 0.
Definition c23_world {P} (st : rstate P T) w l o : rworld B (OrdValMerger nat nat T Z) B (OrdValMerger nat nat T Z) T P :=
  {| rw_in := c23_side [c23_b1; c23_b2; c23_b3] [] [] []; rw_trace := w; rw_op := st; rw_log := l; rw_out := o |}.
Lemma c23_prompt_any {P} (tac : tactic_of B B P T) (p0 : P) : c23_good ->
  forall st w o l, c23_runs tac p0 = Some (st, w, o, l) ->
  rprompt bops ov_contents ov_laws bops tac p0 1 ([tmin], [tmin]) (c23_world st w l o).
Proof.
  intros (C1 & C2 & Lt1 & N1 & L12 & N12 & U1 & U2 & S1 & S2 & S3) st w o l E. unfold c23_runs in E.
  destruct (r_trace bops 1) as [w0|] eqn:E0; [|discriminate].
  destruct (r_activate bops bops tac (c23_spine [c23_b1]) _ _ _ _ _) as [[[[st1 w1] o1] l1]|] eqn:E1; [|discriminate].
  destruct (r_activate bops bops tac (c23_spine [c23_b1; c23_b2]) _ _ _ _ _) as [[[[st2 w2] o2] l2]|] eqn:E2; [|discriminate].
  destruct (r_activate bops bops tac (c23_spine [c23_b1; c23_b2; c23_b3]) _ _ _ _ _) as [[[[st3 w3] o3] l3]|] eqn:E3; [|discriminate].
  injection E as <- <- <- <-.
  destruct (c23_b_is us1 [tmin] [f1] C1) as (K1 & Ec1 & El1 & Eu1 & Es1). destruct (c23_b_is us2 [f1] [f2] C2) as (K2 & Ec2 & El2 & Eu2 & Es2).
  destruct (c23_b_is [] [f2] []) as (K3 & Ec3 & El3 & Eu3 & Es3); [split; constructor|].
  fold c23_b1 in K1, Ec1, El1, Eu1, Es1. fold c23_b2 in K2, Ec2, El2, Eu2, Es2. fold c23_b3 in K3, Ec3, El3, Eu3, Es3.
  assert (B0 : forall t : T, beyond [tmin] t) by (intros t; exists tmin; split; [left; auto|apply tmin_le]).
  assert (Bs : forall f t : T, beyond [f] t <-> tle f t = true) by (intros f t; split; [intros (x & [<-|[]] & H); exact H|intros H; exists f; split; [left; auto|auto]]).
  assert (A1 : forall f : T, antichain [f]) by (intros f; constructor; [intros y []|constructor]).
  assert (P1 : proper bops ov_contents ov_laws c23_b1).
  { constructor; rewrite ?El1, ?Eu1; auto; [discriminate|]. intros H. apply N1. apply tle_antisym; auto. apply Bs, H, B0. }
  assert (P2 : proper bops ov_contents ov_laws c23_b2).
  { constructor; rewrite ?El2, ?Eu2; auto; [discriminate| |].
    - intros t Ht. apply Bs in Ht. apply Bs. eapply tle_trans; eauto.
    - intros H. apply N12. apply tle_antisym; auto. apply Bs, H, Bs, tle_refl. }
  assert (P3 : proper bops ov_contents ov_laws c23_b3).
  { constructor; rewrite ?El3, ?Eu3; auto; [constructor|discriminate| |].
    - intros t Ht. destruct (beyond_nil _ Ht).
    - intros H. apply (beyond_nil f2), H, Bs, tle_refl. }
  assert (W1 : within bops ov_contents c23_b1) by (unfold within; rewrite Ec1, El1, Eu1; eapply Forall_impl; [|exact U1]; cbv beta; intros u Hu; split; [auto|rewrite Bs; congruence]).
  assert (W2 : within bops ov_contents c23_b2) by (unfold within; rewrite Ec2, El2, Eu2; eapply Forall_impl; [|exact U2]; cbv beta; intros u [Hu Hu']; rewrite !Bs; split; [auto|congruence]).
  assert (W3 : within bops ov_contents c23_b3) by (unfold within; rewrite Ec3; constructor).
  assert (Hrun : forall bs b s, s_run bops (with_effort 1) (map (fun b => SInsert b) bs) = Some s -> c23_spine (bs ++ [b]) <> with_effort 0 -> spine_insert bops s b = Some (c23_spine (bs ++ [b]))).
  { intros bs b s Hs Hn. unfold c23_spine in *. rewrite map_app in *. cbn [map] in *.
    assert (Ha : forall l1 s0 s1, s_run bops s0 l1 = Some s1 -> s_run bops s0 (l1 ++ [SInsert b]) = spine_insert bops s1 b).
    { induction l0 as [|c l0 IH]; intros s0 s4 H; cbn [s_run app] in *; [inversion H; subst; destruct (s_step bops s4 (SInsert b)) eqn:Eq; cbn [s_step] in Eq; rewrite Eq; reflexivity|].
      destruct (s_step bops s0 c); [|discriminate]. apply IH; auto. }
    rewrite (Ha _ _ _ Hs) in *. destruct (spine_insert bops s b); [reflexivity|congruence]. }
  assert (R0 : s_run bops (with_effort 1) (map (fun b : B => SInsert b) []) = Some (with_effort 1)) by reflexivity.
  assert (Rs : forall bs, c23_spine bs <> with_effort 0 -> s_run bops (with_effort 1) (map (fun b : B => SInsert b) bs) = Some (c23_spine bs)).
  { intros bs H. unfold c23_spine in *. destruct (s_run bops (with_effort 1) (map (fun b : B => SInsert b) bs)); auto. congruence. }
  pose proof (Hrun [] c23_b1 _ R0 S1) as I1. pose proof (Hrun [c23_b1] c23_b2 _ (Rs _ S1) S2) as I2. pose proof (Hrun [c23_b1; c23_b2] c23_b3 _ (Rs _ S2) S3) as I3. cbn [app] in I1, I2, I3.
  set (G0 := {| rw_in := {| sd_spine := with_effort 1; sd_hist := []; sd_upper := [tmin]; sd_logical := [tmin]; sd_physical := [tmin]; sd_flight := []; sd_front := [tmin] |};
                rw_trace := w0; rw_op := r_start p0 ([tmin], [tmin]); rw_log := []; rw_out := [] |} : rworld B (OrdValMerger nat nat T Z) B (OrdValMerger nat nat T Z) T P).
  assert (Q0 : rprompt bops ov_contents ov_laws bops tac p0 1 ([tmin], [tmin]) G0).
  { apply rp_start. unfold rstarts. cbn [rw_in rw_trace rw_op rw_log rw_out G0 sd_hist sd_flight sd_front sd_logical sd_physical fst snd].
    split; [exists 1, []; split; [exact (sh_nil _ _ _)|split; [reflexivity|split; constructor]]|]. split; [auto|split; [auto|split; [auto|split; [split; auto|]]]]. split; [auto|split; [auto|auto]]. }
  assert (Q1 : rprompt bops ov_contents ov_laws bops tac p0 1 ([tmin], [tmin])
     {| rw_in := c23_side [c23_b1] [f1] [c23_b1] [tmin]; rw_trace := w0; rw_op := r_start p0 ([tmin], [tmin]); rw_log := []; rw_out := [] |}).
  { eapply rp_other; [exact Q0| |reflexivity]. apply rw_env; [|cbn; auto]. unfold c23_side. rewrite <- Eu1.
    apply (se_insert bops ov_contents ov_laws _ (with_effort 1) [] [tmin] [tmin] [tmin] [] [tmin] c23_b1); [exact P1| | | |exact I1].
    - rewrite El1. intros t; tauto.
    - intros t Ht. rewrite Es1. auto.
    - unfold times_beyond. apply Forall_forall. auto. }
  assert (D1 : delivers ov_contents (c23_side [c23_b1] [f1] [c23_b1] [tmin]) [(tmin, [c23_b1])] [f1] (c23_side [c23_b1] [f1] [] [f1])).
  { exists []. split; [reflexivity|]. split; [reflexivity|]. split; [|split; [auto|constructor]]. constructor; [|constructor]. split; [apply B0|]. constructor; [|constructor]. apply Forall_forall. intros u _. apply tmin_le. }
  assert (M1 : timely bops ov_contents [(tmin, [c23_b1])] (c23_side [c23_b1] [f1] [] [f1])).
  { split; [|split; [constructor|auto]]. constructor; [|constructor]. split; [discriminate|]. constructor; [|constructor]. rewrite El1. apply B0. }
  assert (O1 : prompt bops [(tmin, [c23_b1])]).
  { constructor; [|constructor]. constructor. cbn [fst]. rewrite Eu1, Bs. intros H. apply N1. apply tle_antisym; auto. }
  assert (Q2 := rp_activate _ _ _ _ _ _ _ _ _ _ _ _ _ _ _ _ _ Q1 D1 M1 O1 E1). cbn [app] in Q2.
  assert (Q3 : rprompt bops ov_contents ov_laws bops tac p0 1 ([tmin], [tmin])
     {| rw_in := c23_side [c23_b1; c23_b2] [f2] [c23_b2] [f1]; rw_trace := w1; rw_op := st1; rw_log := l1; rw_out := o1 |}).
  { eapply rp_other; [exact Q2| |reflexivity]. apply rw_env; [|cbn; auto]. unfold c23_side. rewrite <- Eu2.
    apply (se_insert bops ov_contents ov_laws _ (c23_spine [c23_b1]) [c23_b1] [f1] [tmin] [tmin] [] [f1] c23_b2); [exact P2| | | |exact I2].
    - rewrite El2. intros t; tauto.
    - intros t Ht. rewrite Es2. auto.
    - unfold times_beyond. rewrite Ec2. eapply Forall_impl; [|exact U2]. cbv beta. intros u [Hu _]. apply Bs, Hu. }
  assert (D2 : delivers ov_contents (c23_side [c23_b1; c23_b2] [f2] [c23_b2] [f1]) [(f1, [c23_b2])] [f2] (c23_side [c23_b1; c23_b2] [f2] [] [f2])).
  { exists []. split; [reflexivity|]. split; [reflexivity|]. split; [|split; [intros t Ht; apply (proj1 (Bs f2 t)) in Ht; apply (Bs f1); eapply tle_trans; eauto|constructor]].
    constructor; [|constructor]. split; [apply Bs, tle_refl|]. constructor; [|constructor]. rewrite Ec2. eapply Forall_impl; [|exact U2]. cbv beta. intros u [Hu _]. exact Hu. }
  assert (M2 : timely bops ov_contents [(f1, [c23_b2])] (c23_side [c23_b1; c23_b2] [f2] [] [f2])).
  { split; [|split; [constructor|auto]]. constructor; [|constructor]. split; [discriminate|]. constructor; [|constructor]. rewrite El2. apply Bs, tle_refl. }
  assert (O2 : prompt bops [(f1, [c23_b2])]).
  { constructor; [|constructor]. constructor. cbn [fst]. rewrite Eu2, Bs. intros H. apply N12. apply tle_antisym; auto. }
  assert (Q4 := rp_activate _ _ _ _ _ _ _ _ _ _ _ _ _ _ _ _ _ Q3 D2 M2 O2 E2).
  assert (Q5 : rprompt bops ov_contents ov_laws bops tac p0 1 ([tmin], [tmin])
     {| rw_in := c23_side [c23_b1; c23_b2; c23_b3] [] [] [f2]; rw_trace := w2; rw_op := st2; rw_log := l1 ++ l2; rw_out := o1 ++ o2 |}).
  { eapply rp_other; [exact Q4| |reflexivity]. apply rw_env; [|cbn; auto]. unfold c23_side at 2. rewrite <- Eu3 at 1.
    apply (se_insert_quietly bops ov_contents ov_laws _ (c23_spine [c23_b1; c23_b2]) [c23_b1; c23_b2] [f2] [tmin] [tmin] [] [f2] c23_b3); [exact P3| | |exact Ec3|exact I3].
    - rewrite El3. intros t; tauto.
    - intros t Ht. rewrite Es3. auto. }
  assert (D3 : delivers ov_contents (c23_side [c23_b1; c23_b2; c23_b3] [] [] [f2]) [] [] (c23_side [c23_b1; c23_b2; c23_b3] [] [] [])).
  { exists []. split; [reflexivity|]. split; [reflexivity|]. split; [constructor|split; [|constructor]]. intros t Ht. destruct (beyond_nil _ Ht). }
  assert (M3 : timely bops ov_contents [] (c23_side [c23_b1; c23_b2; c23_b3] [] [] [])) by (split; [constructor|split; [constructor|auto]]).
  assert (O3 : prompt bops (@nil (T * list B))) by constructor.
  exact (rp_activate _ _ _ _ _ _ _ _ _ _ _ _ _ _ _ _ _ Q5 D3 M3 O3 E3).
Qed.

Lemma c23_reaches_any {P} (tac : tactic_of B B P T) (p0 : P) : c23_good ->
  forall st w o l, c23_runs tac p0 = Some (st, w, o, l) ->
  rreaches bops ov_contents ov_laws bops tac p0 1 ([tmin], [tmin]) (c23_world st w l o).
Proof. intros HG st w o l E. apply rprompt_reaches. apply c23_prompt_any; auto. Qed.
Lemma c23_reaches : c23_good ->
  forall logic st w o l, c23_three logic = Some (st, w, o, l) ->
  reaches bops ov_contents ov_laws bops ov_ops ovc_new ov_ops ovc_new ovb_seal logic 1 ([tmin], [tmin]) (c23_world st w l o).
Proof. intros HG logic st w o l E. exact (c23_reaches_any (c23_tactic logic) [] HG st w o l E). Qed.

Lemma c23_world_input {P} (st : rstate P T) w l o : c23_good -> flat_map ov_contents (sd_hist (rw_in (c23_world st w l o))) = us1 ++ us2.
Proof.
  intros (C1 & C2 & _). assert (C3 : consolidated (A:=nat*nat*T) (@nil (nat*nat*T*Z))) by (split; constructor). cbn [rw_in c23_world c23_side sd_hist flat_map]. unfold c23_b1, c23_b2, c23_b3.
  rewrite (proj1 (proj2 (c23_b_is us1 [tmin] [f1] C1))), (proj1 (proj2 (c23_b_is us2 [f1] [f2] C2))), (proj1 (proj2 (c23_b_is [] [f2] [] C3))).
  rewrite app_nil_r. reflexivity.
Qed.
(** The theorem, of such a run. *)
Lemma c23_run : c23_good -> forall logic F, reduces logic F -> forall st w o l, c23_three logic = Some (st, w, o, l) ->
  forall k t, linear_past t -> forall input, consolidated input -> (forall x, weight input x = acc (us1 ++ us2) (k, x) t) ->
  forall v, acc (flat_map ov_contents (map fst l)) (k, v) t = F k input v.
Proof.
  intros HG logic F HF st w o l E k t HL i Ci Wi v.
  apply (c23_reduce_linear_past_partial bops ov_contents ov_laws bops ov_contents ov_laws _ _ _ _ _ c23_implements logic F HF 1 _ _ (c23_reaches HG logic st w o l E) k t); auto.
  - cbn [rw_in c23_world c23_side sd_front]. apply beyond_nil.
  - rewrite c23_world_input; auto.
Qed.
End Run.

(** The number of values of the key. *)
Definition c23_size : nat -> list (nat * Z) -> list (nat * Z) := fun _ input => [(length input, 1%Z)].
Local Notation P := (nat * nat)%type.

(** *** Times that are numbers.  Key 1 has value 5 from time 0, and value 6 from time 2 to 3. *)
Definition c23_n1 : list (nat * nat * nat * Z) := [((1, 5), 0, 1%Z)].
Definition c23_n2 : list (nat * nat * nat * Z) := [((1, 6), 2, 1%Z); ((1, 6), 3, (-1)%Z)].
Notation c23_nat_run := (c23_three c23_n1 c23_n2 1 5 (abelian_logic c23_size)).
Lemma c23_nat_good : c23_good c23_n1 c23_n2 1 5.
Proof. repeat split; try (repeat constructor; fail); try discriminate; vm_compute; discriminate. Qed.
(** The run does not fail, and this is what it leaves in the output. *)
Example c23_example_nat : exists st w o l, c23_nat_run = Some (st, w, o, l) /\
  flat_map ov_contents (map fst l) = [((1, 1), 0, 1%Z); ((1, 1), 2, (-1)%Z); ((1, 1), 3, 1%Z); ((1, 2), 2, 1%Z); ((1, 2), 3, (-1)%Z)].
Proof.
  destruct c23_nat_run as [[[[st w] o] l]|] eqn:E; [|vm_compute in E; discriminate]. exists st, w, o, l. split; [auto|].
  vm_compute in E. injection E as <- <- <- <-. vm_compute. reflexivity.
Qed.
(** The theorem applies to it: at time 2 the key has two values. *)
Example c23_example_nat_reduce : forall st w o l, c23_nat_run = Some (st, w, o, l) -> forall v, acc (flat_map ov_contents (map fst l)) (1, v) 2 = if eqb 2 v then 1%Z else 0%Z.
Proof.
  intros st w o l E v.
  assert (H := c23_run c23_n1 c23_n2 1 5 c23_nat_good (abelian_logic c23_size) _ (c23_reduce_abelian c23_size) st w o l E 1 2). clear E.
  rewrite (H) with (input := [(5, 1%Z); (6, 1%Z)]).
  - cbn [is_nil c23_size length]. cbn. destruct v as [|[|[|v]]]; reflexivity.
  - intros a b _ _. apply tle_total.
  - split; repeat constructor.
  - intros x. destruct x as [|[|[|[|[|[|[|x]]]]]]]; vm_compute; reflexivity.
Qed.

(** The messages of the run were prompt, so the theorem about capabilities applies to it; at its end none is held. *)
Example c25_example_capabilities : forall st w o l, c23_nat_run = Some (st, w, o, l) -> rs_pending st = [] -> rs_caps st = [].
Proof.
  intros st w o l E Hp. pose proof (c25_reduce_capabilities _ _ _ _ _ _ _ _ _ _ _ c23_implements _ _ (c23_reduce_abelian c23_size) _ _ _ (c23_prompt_any c23_n1 c23_n2 1 5 _ [] c23_nat_good st w o l E)) as H.
  cbn [rw_op c23_world] in H. rewrite Hp in H. destruct (rs_caps st) as [|c cs]; [auto|]. inversion H as [|x y (k & p & [] & _)].
Qed.
Example c25_example_pending : forall st w o l, c23_nat_run = Some (st, w, o, l) -> rs_pending st = [].
Proof. intros st w o l E. vm_compute in E. injection E as <- _ _ _. reflexivity. Qed.

(** *** Times that are pairs.  Key 1 has value 9 from time (7,0).  Then, with times not beyond (5,1) closing, it gets
    value 7 from (1,2), and value 8 at (2,1) which goes at (3,1). *)
Definition c23_p1 : list (nat * nat * P * Z) := [((1, 9), (7, 0), 1%Z)].
Definition c23_p2 : list (nat * nat * P * Z) := [((1, 7), (1, 2), 1%Z); ((1, 8), (2, 1), 1%Z); ((1, 8), (3, 1), (-1)%Z)].
Notation c23_pair_run := (c23_three c23_p1 c23_p2 (0, 1) (5, 1) (abelian_logic c23_size)).
Lemma c23_pair_good : c23_good c23_p1 c23_p2 (0, 1) (5, 1).
Proof. repeat split; try (repeat constructor; fail); try discriminate; vm_compute; discriminate. Qed.
Lemma c23_pair_log : exists st w o l, c23_pair_run = Some (st, w, o, l) /\ acc (flat_map ov_contents (map fst l)) (1, 2) (7, 2) = 0%Z.
Proof.
  destruct c23_pair_run as [[[[st w] o] l]|] eqn:E; [|vm_compute in E; discriminate]. exists st, w, o, l. split; [auto|].
  vm_compute in E. injection E as <- <- <- <-. vm_compute. auto.
Qed.
(** The theorem applies to it at (7,0), whose past is totally ordered, ... *)
Example c23_example_pair : forall st w o l, c23_pair_run = Some (st, w, o, l) -> forall v, acc (flat_map ov_contents (map fst l)) (1, v) (7, 0) = if eqb 1 v then 1%Z else 0%Z.
Proof.
  intros st w o l E v.
  assert (H := c23_run c23_p1 c23_p2 (0, 1) (5, 1) c23_pair_good (abelian_logic c23_size) _ (c23_reduce_abelian c23_size) st w o l E 1 (7, 0)). clear E.
  rewrite (H) with (input := [(9, 1%Z)]).
  - cbn [is_nil c23_size length]. cbn. destruct v as [|[|v]]; reflexivity.
  - intros [a a'] [b b'] Ha Hb. cbn in Ha, Hb. apply andb_prop in Ha, Hb. destruct Ha as [_ Ha], Hb as [_ Hb].
    destruct a' as [|a']; [|discriminate]. destruct b' as [|b']; [|discriminate]. change (tle (a, 0) (b, 0)) with (int_le a b && true). change (tle (b, 0) (a, 0)) with (int_le b a && true).
    rewrite !andb_true_r. destruct (tle_total a b) as [H1|H1]; [left|right]; exact H1.
  - split; repeat constructor.
  - intros x. destruct x as [|[|[|[|[|[|[|[|[|[|x]]]]]]]]]]; vm_compute; reflexivity.
Qed.

(** ... but not at (7,2).  And without [linear_past] the claim is false of the code: in this run the input has two values
    at (7,2), and the output says it has one, for ever. *)
Theorem c23_reduce_refuted : ~ (forall (logic : nat -> list (nat * Z) -> list (nat * Z) -> list (nat * Z)) (F : nat -> list (nat * Z) -> nat -> Z), reduces logic F ->
  forall e handle w, reaches (ov_batch_ops (K:=nat) (V:=nat) (T:=P) (R:=Z)) ov_contents ov_laws ov_batch_ops (ov_ops (K:=nat) (V:=nat)) ovc_new (ov_ops (K:=nat) (V:=nat)) ovc_new ovb_seal logic e handle w ->
  forall k t, ~ beyond (sd_front (rw_in w)) t -> forall input, consolidated input ->
  (forall x, weight input x = acc (flat_map ov_contents (sd_hist (rw_in w))) (k, x) t) ->
  forall v, acc (flat_map ov_contents (map fst (rw_log w))) (k, v) t = F k input v).
Proof.
  intros H. destruct c23_pair_log as (st & w & o & l & E & Ea).
  assert (H' := H _ _ (c23_reduce_abelian c23_size) 1 _ _ (c23_reaches c23_p1 c23_p2 (0, 1) (5, 1) c23_pair_good (abelian_logic c23_size) st w o l E) 1 (7, 2)). clear H.
  rewrite (c23_world_input c23_p1 c23_p2 (0, 1) (5, 1) st w l o c23_pair_good) in H'. cbn [rw_in rw_log c23_world c23_side sd_front] in H'.
  specialize (H' (beyond_nil _) [(7, 1%Z); (9, 1%Z)]).
  assert (C : consolidated [(7, 1%Z); (9, 1%Z)]) by (split; repeat constructor). specialize (H' C).
  assert (Wi : forall x, weight [(7, 1%Z); (9, 1%Z)] x = acc (c23_p1 ++ c23_p2) (1, x) (7, 2)).
  { intros x. destruct x as [|[|[|[|[|[|[|[|[|[|x]]]]]]]]]]; vm_compute; reflexivity. }
  specialize (H' Wi 2). rewrite Ea in H'. cbn in H'. discriminate.
Qed.
Print Assumptions c23_reduce_refuted.
