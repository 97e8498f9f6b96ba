(** Cloned scopes: the clone is the splice, and nested scopes export what they compute inside. *)
From Verif Require Export Proofs.CloneScopeP.
From Verif Require Import Base.Collections Base.Arrays Base.Order Spec.PointStampSpec.
Local Open Scope nat_scope.

(** ** References of the splice *)
Lemma copy_item b vb im d n rs : copy b vb im d n rs -> forall i it', nth_error n i = Some it' -> exists it, nth_error d i = Some it /\
  (forall r', In r' (item_refs it') -> exists r, In r (item_refs it) /\ sref b vb im r = Some r') /\
  match it, it' with IOp _, IOp _ => True | ISub c, ISub c' => length (sc_exports c') = length (sc_exports c) + length (sites c) /\ everywhere refs_ok c' | _, _ => False end.
Proof.
  induction 1 as [|d n rs nd nd' r C IH K E Hr|d n rs c c' C IH K F R N E H X Y]; intros i it' Ei; [destruct i; discriminate| |].
  - pose proof (copy_length _ _ _ _ _ _ C) as L. destruct (lt_dec i (length n)) as [Hi|Hi].
    + rewrite nth_error_app1 in Ei by auto. destruct (IH i it' Ei) as (it & A & B). exists it. rewrite nth_error_app1 by lia. auto.
    + rewrite nth_error_app2 in Ei by lia. destruct (i - length n) as [|k] eqn:Ek; [|destruct k; discriminate]. injection Ei as <-.
      exists (IOp nd). rewrite nth_error_app2 by lia. replace (i - length d) with 0 by lia. split; auto. split; auto. simpl. intros r' Hr'.
      apply node_each_refs in E. apply (mapO_in _ _ _ _ E Hr').
  - pose proof (copy_length _ _ _ _ _ _ C) as L. destruct (lt_dec i (length n)) as [Hi|Hi].
    + rewrite nth_error_app1 in Ei by auto. destruct (IH i it' Ei) as (it & A & B). exists it. rewrite nth_error_app1 by lia. auto.
    + rewrite nth_error_app2 in Ei by lia. destruct (i - length n) as [|k] eqn:Ek; [|destruct k; discriminate]. injection Ei as <-.
      exists (ISub c). rewrite nth_error_app2 by lia. replace (i - length d) with 0 by lia. split; auto. split; auto. simpl. intros r' Hr'.
      apply (imports_each_refs _ _ _ _ E Hr').
Qed.
Lemma copy_nth b vb im d n rs i it : copy b vb im d n rs -> nth_error d i = Some it -> exists it', nth_error n i = Some it' /\
  match it, it' with IOp _, IOp _ => True | ISub c, ISub c' => length (sc_exports c') = length (sc_exports c) + length (sites c) /\ everywhere refs_ok c' | _, _ => False end.
Proof.
  intros C E. pose proof (copy_length _ _ _ _ _ _ C) as L. assert (Hi : i < length d) by (apply nth_error_Some; congruence).
  destruct (nth_error n i) as [it'|] eqn:En; [|apply nth_error_None in En; lia]. destruct (copy_item _ _ _ _ _ _ C i it' En) as (it0 & E0 & _ & H).
  rewrite E in E0. injection E0 as <-. eauto.
Qed.
Lemma copy_visible b vb im d n rs : copy b vb im d n rs -> forall r', In r' rs ->
  (exists i nd, nth_error d i = Some (IOp nd) /\ r' = RLocal (b + i)) \/
  (exists i x, nth_error d i = Some (IOp (NArrange x)) /\ sref b vb im x = Some r') \/
  (exists i c k, nth_error d i = Some (ISub c) /\ r' = RChildExport (b + i) (length (sc_exports c) + k) /\ k < length (sites c)).
Proof.
  assert (App : forall i d it x, nth_error d i = Some it -> nth_error (d ++ x) i = Some (it : Item)).
  { intros i d0 it x E. rewrite nth_error_app1; auto. apply nth_error_Some; congruence. }
  induction 1 as [|d n rs nd nd' r C IH K E Hr|d n rs c c' C IH K F R N E H X Y]; intros r' Hr'; [destruct Hr'| |].
  - apply in_app_iff in Hr' as [Hr'|[<-|[]]].
    + destruct (IH _ Hr') as [(i & nd0 & A & B)|[(i & x & A & B)|(i & c & k & A & B & D)]]; [left; exists i, nd0|right; left; exists i, x|right; right; exists i, c, k]; auto.
    + assert (L : nth_error (d ++ [IOp nd]) (length d) = Some (IOp nd)) by (rewrite nth_error_app2, Nat.sub_diag by lia; auto).
      destruct nd; try (left; eexists; eexists; split; [exact L|exact Hr]). right; left. eexists; eexists; split; [exact L|exact Hr].
  - apply in_app_iff in Hr' as [Hr'|Hr'].
    + destruct (IH _ Hr') as [(i & nd0 & A & B)|[(i & x & A & B)|(i & c0 & k & A & B & D)]]; [left; exists i, nd0|right; left; exists i, x|right; right; exists i, c0, k]; auto.
    + apply in_map_iff in Hr' as (k & <- & Hk). apply in_seq in Hk. right; right. exists (length d), c, k. rewrite nth_error_app2, Nat.sub_diag by lia. split; auto. split; auto. lia.
Qed.

Section Refs.
Variables (orig out : Scope) (im : list Ref) (n : list Item) (rs : list Ref) (bs' : list Bind) (es' : list Export).
Local Notation b := (length (sc_items out)).
Local Notation f := (sref b (length (sc_vars out)) im).
Hypothesis (Ro : refs_ok orig) (Ru : refs_ok out) (Rim : forall r, In r im -> ref_ok out b r) (Lim : length im = length (sc_imports orig)).
Hypothesis (C : copy b (length (sc_vars out)) im (sc_items orig) n rs).
Hypothesis (Eb : mapO (bind_shift (length (sc_vars out)) f) (sc_binds orig) = Some bs') (Ee : mapO (export_each f) (sc_exports orig) = Some es').
Local Notation sp := (spliced orig out n bs' es').
Lemma old_ok bound r : ref_ok out bound r -> bound <= b -> forall bound', bound <= bound' -> ref_ok sp bound' r.
Proof.
  destruct r as [i|i|i|i j]; simpl; intros H Hb bound' Hb'; try (rewrite app_length; lia); auto.
  - destruct H as (H & nd & E). split; [lia|]. exists nd. rewrite nth_error_app1; auto. lia.
  - destruct H as (H & c & E & Hj). split; [lia|]. exists c. rewrite nth_error_app1; auto. lia.
Qed.
Lemma new_ok bound r r' : ref_ok orig bound r -> f r = Some r' -> ref_ok sp (b + bound) r'.
Proof.
  destruct r as [i|i|i|i j]; simpl; intros H E.
  - injection E as <-. destruct H as (H & nd & E). destruct (copy_nth _ _ _ _ _ _ _ _ C E) as ([nd'|] & E' & Q); [|destruct Q]. simpl. split; [lia|]. exists nd'.
    rewrite nth_error_app2 by lia. replace (b + i - b) with i by lia. auto.
  - apply nth_error_In in E. eapply old_ok; [apply Rim; exact E|lia|lia].
  - injection E as <-. simpl. rewrite app_length. lia.
  - injection E as <-. destruct H as (H & c & E & Hj). destruct (copy_nth _ _ _ _ _ _ _ _ C E) as ([|c'] & E' & Q); [destruct Q|]. simpl. split; [lia|]. exists c'.
    rewrite nth_error_app2 by lia. replace (b + i - b) with i by lia. split; auto. lia.
Qed.
Lemma spliced_refs : refs_ok sp.
Proof.
  pose proof (copy_length _ _ _ _ _ _ C) as L. destruct Ro as (R1 & R2 & R3). destruct Ru as (U1 & U2 & U3). split; [|split].
  - simpl. intros i it r E Hr. destruct (lt_dec i b) as [Hi|Hi].
    + rewrite nth_error_app1 in E by auto. eapply old_ok; [eapply U1; eauto|lia|lia].
    + rewrite nth_error_app2 in E by lia. destruct (copy_item _ _ _ _ _ _ C _ _ E) as (it0 & E0 & F & _). destruct (F r Hr) as (r0 & Hr0 & Er0).
      replace i with (b + (i - b)) by lia. eapply new_ok; eauto.
  - simpl. intros x Hx. rewrite app_length, L. apply in_app_iff in Hx as [Hx|Hx]; [eapply old_ok; [apply U2; exact Hx|lia|lia]|].
    destruct (mapO_in _ _ _ _ Eb Hx) as (y & Hy & Ey). unfold bind_shift in Ey. destruct (f (bi_value y)) as [r|] eqn:Er; [|discriminate]. injection Ey as <-. simpl. eapply new_ok; eauto.
  - simpl. intros x Hx. rewrite app_length, L. apply in_app_iff in Hx as [Hx|Hx]; [eapply old_ok; [apply U3; exact Hx|lia|lia]|].
    destruct (mapO_in _ _ _ _ Ee Hx) as (y & Hy & Ey). unfold export_each in Ey. destruct (f (ex_value y)) as [r|] eqn:Er; [|discriminate]. injection Ey as <-. simpl. eapply new_ok; eauto.
Qed.
Lemma spliced_everywhere : everywhere refs_ok out -> everywhere refs_ok sp.
Proof.
  intros U. constructor; [apply spliced_refs|]. simpl. intros c Hc. apply in_app_iff in Hc as [Hc|Hc]; [eapply everywhere_in; eauto|].
  apply In_nth_error in Hc as (i & E). destruct (copy_item _ _ _ _ _ _ C _ _ E) as ([|c0] & _ & _ & Q); [destruct Q|]. apply Q.
Qed.
Lemma visible_refs r : In r (var_refs orig out ++ rs) -> ref_ok sp (length (sc_items sp)) r.
Proof.
  pose proof (copy_length _ _ _ _ _ _ C) as L. assert (Eq : length (sc_items sp) = b + length (sc_items orig)) by (simpl; rewrite app_length; lia). rewrite Eq. intros H.
  apply in_app_iff in H as [H|H].
  - apply in_map_iff in H as (v & <- & Hv). apply in_seq in Hv. simpl. rewrite app_length. lia.
  - destruct (copy_visible _ _ _ _ _ _ C r H) as [(i & nd & A & ->)|[(i & x & A & B)|(i & c & k & A & -> & D)]].
    + apply (new_ok _ (RLocal i)); auto. simpl. split; [apply nth_error_Some; congruence|eauto].
    + apply (new_ok (length (sc_items orig)) x); auto. destruct Ro as (R1 & _). pose proof (R1 _ _ x A (or_introl eq_refl)) as Rx.
      assert (Hi : i < length (sc_items orig)) by (apply nth_error_Some; congruence). destruct x as [j|j|j|j j']; simpl in *; auto; destruct Rx as (Q & Rx); (split; [lia|auto]).
    + destruct (copy_nth _ _ _ _ _ _ _ _ C A) as ([|c'] & E' & Q); [destruct Q|]. simpl. assert (Hi : i < length (sc_items orig)) by (apply nth_error_Some; congruence).
      split; [lia|]. exists c'. rewrite nth_error_app2 by lia. replace (b + i - b) with i by lia. split; auto. lia.
Qed.
End Refs.

(** ** Lifts *)
Definition lift_item (r : Ref) : Item := IOp (NLinear r [LLiftIter]).
Definition host_exports (i e k : nat) : list Export := map (fun x => {| ex_name := host_name (e + x); ex_value := RLocal (i + x) |}) (seq 0 k).
Definition with_lifts (s : Scope) (rs : list Ref) : Scope :=
  MkScope (sc_name s) (sc_imports s) (sc_vars s) (sc_items s ++ map lift_item rs) (sc_binds s)
    (sc_exports s ++ host_exports (length (sc_items s)) (length (sc_exports s)) (length rs)).
Lemma host_exports_S i e k : host_exports i e (S k) = {| ex_name := host_name e; ex_value := RLocal i |} :: host_exports (S i) (S e) k.
Proof.
  unfold host_exports. simpl. rewrite !Nat.add_0_r. f_equal. rewrite <- seq_shift, map_map. apply map_ext. intros x. rewrite !Nat.add_succ_r. auto.
Qed.
Lemma lift_sites_spec sub vis : forall s, fst (lift_sites sub vis s) = with_lifts s (map snd vis) /\
  map fst (snd (lift_sites sub vis s)) = map fst vis /\
  map snd (snd (lift_sites sub vis s)) = map (fun x => RChildExport sub (length (sc_exports s) + x)) (seq 0 (length vis)).
Proof.
  induction vis as [|[a r] vis IH]; intros s.
  - simpl. unfold with_lifts, host_exports. simpl. rewrite !app_nil_r. destruct s; auto.
  - cbn [lift_sites]. match goal with |- context [lift_sites sub vis ?x] => set (s1 := x) end. destruct (IH s1) as (A & B & D).
    destruct (lift_sites sub vis s1) as [s2 vs]. simpl in A, B, D |- *. split; [|split].
    + rewrite A. unfold with_lifts, s1. cbn [sc_name sc_imports sc_vars sc_items sc_binds sc_exports push_item push_export map]. rewrite !app_length. cbn [length].
      rewrite host_exports_S, <- !app_assoc, !Nat.add_1_r. auto.
    + rewrite B. auto.
    + rewrite Nat.add_0_r. f_equal. rewrite D. unfold s1; simpl. rewrite app_length; simpl. rewrite <- seq_shift, map_map. apply map_ext. intros x. f_equal. lia.
Qed.
Lemma lift_vals depth s ims vars rs : length vars = length (sc_vars s) -> (forall r, In r rs -> ref_ok s (length (sc_items s)) r) -> forall vals,
  vals_ok depth ims vars (sc_items s ++ map lift_item rs) vals <->
  exists v0 cs gs, vals = v0 ++ map VOp cs /\ vals_ok depth ims vars (sc_items s) v0 /\ mapO (resolve v0 ims vars) rs = Some gs /\
    Forall2 (fun g c => same_coll c (linear_of [LLiftIter] depth g)) gs cs.
Proof.
  intros Lv. induction rs as [|r rs IH] using rev_ind; intros Rs vals.
  - simpl. rewrite app_nil_r. split.
    + intros V. exists vals, [], []. rewrite app_nil_r. auto.
    + intros (v0 & cs & gs & -> & V & [= <-] & F). inversion F; subst. rewrite app_nil_r. auto.
  - rewrite map_app, app_assoc. cbn [map]. rewrite vals_ok_snoc. assert (Rr : ref_ok s (length (sc_items s)) r) by (apply Rs; apply in_app_iff; right; left; auto).
    specialize (IH (fun x Hx => Rs x (proj2 (in_app_iff _ _ _) (or_introl Hx)))).
    assert (Same : forall v0 cs, vals_ok depth ims vars (sc_items s) v0 -> resolve (v0 ++ map VOp cs) ims vars r = resolve v0 ims vars r).
    { intros v0 cs [L _]. rewrite <- (app_nil_r vars) at 1. apply (ref_resolve s _ _ _ _ _ (length (sc_items s))); auto. }
    split.
    + intros (v & x & -> & V & M). apply IH in V as (v0 & cs & gs & -> & V & E & F). simpl in M. destruct x as [c|]; [|contradiction].
      destruct M as (g & Eg & Sg). rewrite (Same v0 cs V) in Eg. exists v0, (cs ++ [c]), (gs ++ [g]). rewrite map_app, app_assoc. split; auto. split; auto.
      split; [apply mapO_app_some; auto; cbn [mapO]; rewrite Eg; auto|]. apply Forall2_app; auto.
    + intros (v0 & cs & gs & -> & V & E & F). apply mapO_app_inv in E as (g1 & g2 & -> & E1 & E2). apply mapO_cons_inv in E2 as (g & q & -> & Eg & Eq). injection Eq as <-.
      apply Forall2_app_inv_l in F as (c1 & c2 & F1 & F2 & ->). inversion F2 as [|? c ? ? Hc Hn]; subst. inversion Hn; subst. rewrite map_app, app_assoc.
      exists (v0 ++ map VOp c1), (VOp c). split; auto. split; [apply IH; exists v0, c1, g1; auto|]. simpl. exists g. rewrite (Same v0 c1 V). auto.
Qed.
Lemma lift_means depth s ims rs X : refs_ok s -> (forall r, In r rs -> ref_ok s (length (sc_items s)) r) ->
  scope_means depth (with_lifts s rs) ims X <-> exists exs gs hs, X = exs ++ hs /\ length exs = length (sc_exports s) /\
    scope_means depth (reading s (map ex_value (sc_exports s) ++ rs)) ims (exs ++ gs) /\
    Forall2 (fun g h => same_coll h (linear_of [LLiftIter] depth g)) gs hs.
Proof.
  intros (_ & R2 & R3) Rs.
  assert (Host : forall v0 cs vars, length v0 = length (sc_items s) -> length cs = length rs ->
    mapO (fun e => resolve (v0 ++ map VOp cs) ims vars (ex_value e)) (host_exports (length (sc_items s)) (length (sc_exports s)) (length rs)) = Some cs).
  { intros v0 cs vars L0 Lc. unfold host_exports. rewrite mapO_map, <- Lc. apply mapO_seq. intros i Hi. simpl. rewrite nth_error_app2 by lia.
    replace (length (sc_items s) + i - length v0) with i by lia. rewrite nth_error_map. destruct (nth_error cs i); auto. }
  assert (Look : forall vars v0 cs r, length vars = length (sc_vars s) -> length v0 = length (sc_items s) -> ref_ok s (length (sc_items s)) r ->
    resolve (v0 ++ map VOp cs) ims vars r = resolve v0 ims vars r).
  { intros vars v0 cs r Lv L0 Hr. rewrite <- (app_nil_r vars) at 1. apply (ref_resolve s _ _ _ _ _ (length (sc_items s))); auto. }
  assert (Binds : forall vars v0 cs, length vars = length (sc_vars s) -> length v0 = length (sc_items s) -> forall v c,
    bind_means depth (resolve (v0 ++ map VOp cs) ims vars) (sc_binds s) v c <-> bind_means depth (resolve v0 ims vars) (sc_binds s) v c).
  { intros vars v0 cs Lv L0 v c. unfold bind_means. destruct (find _ (sc_binds s)) as [b|] eqn:E; [|tauto]. apply find_some in E as (Hb & _). rewrite Look by auto. tauto. }
  split.
  - intros M. apply means_runs in M as (vars & vals & (Lv & V & W & B & D) & outs & E & F). simpl in Lv, V, W, B, D, E.
    apply (lift_vals depth s ims vars rs Lv Rs) in V as (v0 & cs & gs & -> & V & Eg & Fg). pose proof (proj1 V) as L0.
    assert (Lc : length cs = length rs) by (apply F2_length in Fg; apply mapO_length' in Eg; congruence).
    apply mapO_app_inv in E as (o1 & o2 & -> & E1 & E2). rewrite (Host v0 cs vars L0 Lc) in E2. injection E2 as <-.
    apply Forall2_app_inv_l in F as (exs & hs & F1 & F2 & ->). exists exs, gs, hs. split; auto.
    split; [apply F2_length in F1; apply mapO_length' in E1; congruence|]. split.
    + apply reading_runs. exists vars, v0. split; [split; auto; split; auto; split; auto; split; auto; intros v c Ev; apply (Binds vars v0 cs Lv L0), B, Ev|].
      exists (o1 ++ gs). split; [|apply Forall2_app; auto; apply Forall2_same_refl]. apply mapO_app_some; auto. rewrite mapO_map, <- E1. apply mapO_ext. intros e He. symmetry. apply Look; auto.
    + clear -Fg F2. revert hs F2. induction Fg as [|g c gs cs H _ IH]; intros hs F2; inversion F2; subst; constructor; auto. eapply same_coll_trans; [apply same_coll_sym; eauto|auto].
  - intros (exs & gs & hs & -> & Le & M & F). apply reading_runs in M as (vars & v0 & (Lv & V & W & B & D) & outs & E & Fo). pose proof (proj1 V) as L0.
    apply mapO_app_inv in E as (o1 & gs' & -> & E1 & E2). apply Forall2_split in Fo as (Fo1 & Fo2); [|apply mapO_length' in E1; rewrite map_length in E1; congruence].
    assert (Fh : Forall2 (fun g h => same_coll h (linear_of [LLiftIter] depth g)) gs' hs).
    { clear -F Fo2. revert hs F. induction Fo2 as [|x y gs' gs H _ IH]; intros hs F; inversion F; subst; constructor; auto. eapply same_coll_trans; [eauto|]. apply linear_same, same_coll_sym; auto. }
    assert (Lc : length hs = length rs) by (apply F2_length in Fh; apply mapO_length' in E2; congruence).
    apply means_runs. exists vars, (v0 ++ map VOp hs). split.
    + split; auto. split; [apply (lift_vals depth s ims vars rs Lv Rs); exists v0, hs, gs'; auto|]. split; auto. split; auto. intros v c Ev. apply (Binds vars v0 hs Lv L0), B, Ev.
    + exists (o1 ++ hs). split; [|apply Forall2_app; auto; apply Forall2_same_refl]. simpl. apply mapO_app_some; [|apply Host; auto].
      rewrite mapO_map in E1. rewrite <- E1. apply mapO_ext. intros e He. apply Look; auto.
Qed.
Lemma lift_refs s rs : everywhere refs_ok s -> (forall r, In r rs -> ref_ok s (length (sc_items s)) r) -> everywhere refs_ok (with_lifts s rs).
Proof.
  intros ((R1 & R2 & R3) & Rc) Rs.
  assert (Old : forall bound r, ref_ok s bound r -> bound <= length (sc_items s) -> forall bound', bound <= bound' -> ref_ok (with_lifts s rs) bound' r).
  { intros bound [i|i|i|i j]; simpl; intros H Hb bound' Hb'; auto.
    - destruct H as (H & nd & E). split; [lia|]. exists nd. rewrite nth_error_app1; auto. lia.
    - destruct H as (H & c & E & Hj). split; [lia|]. exists c. rewrite nth_error_app1; auto. lia. }
  constructor; [split; [|split]|].
  - simpl. intros i it r E Hr. destruct (lt_dec i (length (sc_items s))) as [Hi|Hi].
    + rewrite nth_error_app1 in E by auto. eapply Old; [eapply R1; eauto|lia|lia].
    + rewrite nth_error_app2 in E by lia. apply nth_error_In in E. apply in_map_iff in E as (x & <- & Hx). destruct Hr as [<-|[]]. eapply Old; [apply Rs; auto|lia|lia].
  - simpl. intros x Hx. rewrite app_length. eapply Old; [apply R2; auto|lia|lia].
  - simpl. intros x Hx. rewrite app_length, map_length. apply in_app_iff in Hx as [Hx|Hx]; [eapply Old; [apply R3; auto|lia|lia]|].
    apply in_map_iff in Hx as (k & <- & Hk). apply in_seq in Hk. simpl. split; [lia|]. destruct (nth_error rs k) as [r|] eqn:Er; [|apply nth_error_None in Er; lia].
    exists (NLinear r [LLiftIter]). rewrite nth_error_app2 by lia. replace (length (sc_items s) + k - length (sc_items s)) with k by lia. rewrite nth_error_map, Er. auto.
  - simpl. intros c Hc. apply in_app_iff in Hc as [Hc|Hc]; auto. apply in_map_iff in Hc as (r & Q & _). discriminate.
Qed.
