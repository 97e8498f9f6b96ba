(** * Surveys trimmed of what only one input has at their end *)
From Coq Require Import Arith Lia.
From Verif Require Import Base.Arrays Base.Collections Model.ColumnarM Proofs.ColListsP Proofs.ColSurveyP.
From Verif Require Import Base.Order.

(** ** The inputs exchanged *)
Definition swap_one (r : Report) : Report := match r with This l u => That l u | That l u => This l u | Both i j => Both j i end.
Definition swap (s : list Report) : list Report := map swap_one s.
Lemma swap_swap s : swap (swap s) = s.
Proof. unfold swap. rewrite map_map. rewrite <- (map_id s) at 2. apply map_ext. intros []; reflexivity. Qed.
Lemma swap_app s1 s2 : swap (s1 ++ s2) = swap s1 ++ swap s2.
Proof. apply map_app. Qed.
Lemma zips_swap (E E' : nat -> nat -> Prop) p p' q q' s : (forall a b, E a b -> E' b a) -> zips E p p' q q' s -> zips E' q q' p p' (swap s).
Proof. intros HE. induction 1; cbn [swap map swap_one]; constructor; auto. Qed.
Lemma same_swap {Y} (P0 P1 : list Y) a b : same P0 P1 a b -> same P1 P0 b a.
Proof. intros (x & H1 & H2). exists x. auto. Qed.
Lemma read_swap {Y} (P0 P1 : list Y) p p' q q' s : zips (same P0 P1) p p' q q' s -> read P1 P0 (swap s) = read P0 P1 s.
Proof.
  induction 1 as [|p m p' q q' s L H IH|p p' q m q' s L H IH|p p' q q' s E H IH]; cbn [swap map swap_one read flat_map read_one]; auto; unfold read, swap in IH; rewrite IH; auto.
  f_equal. destruct E as (x & E0 & E1). rewrite (sub_one P0 p x E0), (sub_one P1 q x E1). reflexivity.
Qed.
Lemma refines_swap {X} {OX : Ord X} (G0 G1 : list (list X)) S S' gs : refines G0 G1 S S' gs -> refines G1 G0 (swap S) (swap S') gs.
Proof.
  induction 1 as [|l u S S' gs L B H IH|l u S S' gs L B H IH|i j s S S' gs Bi Bj Hz Hs H IH|i j s p0 q0 Bi Bj Hz Hp Hq Hn Hs]; cbn [swap map swap_one] in *; try (constructor; auto; fail).
  - fold (swap S) (swap (s ++ S')). rewrite swap_app. rewrite <- (read_swap _ _ _ _ _ _ _ Hz). rewrite <- (read_swap _ _ _ _ _ _ _ Hz) in Hs. constructor; auto. eapply zips_swap; [|exact Hz]. intros a b. apply same_swap.
  - fold (swap s). rewrite <- (read_swap _ _ _ _ _ _ _ Hz). rewrite <- (read_swap _ _ _ _ _ _ _ Hz) in Hs. econstructor; eauto; [eapply zips_swap; [|exact Hz]; intros a b; apply same_swap|].
    intros E. apply map_eq_nil in E. auto.
Qed.
Lemma full_swap {X} {OX : Ord X} (G0 G1 : list (list X)) S S' gs : full G0 G1 S S' gs -> full G1 G0 (swap S) (swap S') gs.
Proof.
  induction 1 as [|l u S S' gs L B H IH|l u S S' gs L B H IH|i j s S S' gs Bi Bj Hz Hs H IH]; cbn [swap map swap_one] in *; try (constructor; auto; fail).
  fold (swap S) (swap (s ++ S')). rewrite swap_app. rewrite <- (read_swap _ _ _ _ _ _ _ Hz). rewrite <- (read_swap _ _ _ _ _ _ _ Hz) in Hs. constructor; auto. eapply zips_swap; [|exact Hz]. intros a b. apply same_swap.
Qed.

(** ** Trimming *)
Fixpoint trimmed (f : Report -> bool) (s : list Report) : list Report :=
  match s with [] => [] | r :: s => match trimmed f s with [] => if f r then [] else [r] | s' => r :: s' end end.
Lemma trimmed_split f s : exists th, s = trimmed f s ++ th /\ forallb f th = true.
Proof.
  induction s as [|r s (th & E & H)]; [exists []; auto|]. cbn [trimmed]. destruct (trimmed f s) as [|r' s'] eqn:Et.
  - cbn in E. subst th. destruct (f r) eqn:Ef; [exists (r :: s); cbn; rewrite Ef; auto|exists s; auto].
  - exists th. split; auto. rewrite E at 1. reflexivity.
Qed.
Lemma trimmed_last f s : trimmed f s = [] \/ exists s0 r, trimmed f s = s0 ++ [r] /\ f r = false.
Proof.
  induction s as [|r s IH]; [auto|]. cbn [trimmed]. destruct (trimmed f s) as [|r' s'].
  - destruct (f r) eqn:Ef; auto. right. exists [], r. auto.
  - right. destruct IH as [H|(s0 & r0 & E & H)]; [discriminate|]. exists (r :: s0), r0. rewrite E. auto.
Qed.
Lemma trimmed_app f s1 s2 : trimmed f (s1 ++ s2) = match trimmed f s2 with [] => trimmed f s1 | s' => s1 ++ s' end.
Proof.
  induction s1 as [|r s1 IH]; cbn [app trimmed]; [destruct (trimmed f s2); auto|]. rewrite IH. destruct (trimmed f s2) as [|r' s'] eqn:E; auto.
  destruct (s1 ++ r' :: s') eqn:E2; [destruct s1; discriminate|]. reflexivity.
Qed.
Lemma trimmed_all f s : trimmed f s = [] -> forallb f s = true.
Proof. destruct (trimmed_split f s) as (th & E & H). intros E2. rewrite E2 in E. cbn in E. subst. auto. Qed.
Lemma trimmed_none f s r : f r = false -> trimmed f (s ++ [r]) = s ++ [r].
Proof. intros H. rewrite trimmed_app. cbn. rewrite H. reflexivity. Qed.
Lemma trimmed_swap s : trimmed is_that s = swap (trimmed is_this (swap s)).
Proof.
  induction s as [|r s IH]; auto. cbn [swap map trimmed]. fold (swap s). rewrite IH. destruct (trimmed is_this (swap s)) as [|r' s'] eqn:E; cbn [swap map].
  - destruct r; reflexivity.
  - destruct r; reflexivity.
Qed.

(** The position reached in the first input. *)
Fixpoint stop0 (p : nat) (s : list Report) : nat :=
  match s with [] => p | This _ u :: s => stop0 u s | That _ _ :: s => stop0 p s | Both i _ :: s => stop0 (S i) s end.
Lemma zips_stop E p p' q q' s : zips E p p' q q' s -> stop0 p s = p'.
Proof. induction 1; cbn [stop0]; auto. Qed.
Lemma stop0_app s1 : forall p s2, stop0 p (s1 ++ s2) = stop0 (stop0 p s1) s2.
Proof. induction s1 as [|r s1 IH]; intros p s2; cbn [app stop0]; auto. destruct r; apply IH. Qed.

Lemma trim_this_ok E s : forall p p' q q', zips E p p' q q' s -> trim_this (rev s) p' = (rev (trimmed is_this s), stop0 p (trimmed is_this s)).
Proof.
  induction s as [|r s IH] using rev_ind; intros p p' q q' H.
  - inversion H; subst. reflexivity.
  - rewrite rev_app_distr. cbn [rev app]. pose proof H as H0. apply zips_app in H0 as (a & b & H1 & H2). destruct r as [l u|i j|l u]; cbn [trim_this].
    + inversion H2; subst. match goal with HH : zips _ _ _ _ _ [] |- _ => inversion HH; subst end. rewrite (IH _ _ _ _ H1). rewrite trimmed_app. reflexivity.
    + rewrite trimmed_none by reflexivity. rewrite rev_app_distr. cbn [rev app]. rewrite (zips_stop _ _ _ _ _ _ H). reflexivity.
    + rewrite trimmed_none by reflexivity. rewrite rev_app_distr. cbn [rev app]. rewrite (zips_stop _ _ _ _ _ _ H). reflexivity.
Qed.
Lemma trim_that_swap s : forall i, trim_that s i = (swap (fst (trim_this (swap s) i)), snd (trim_this (swap s) i)).
Proof. induction s as [|r s IH]; intros i; cbn; auto. destruct r as [l u|x y|l u]; cbn; auto; fold (swap s); rewrite swap_swap; reflexivity. Qed.
Lemma trim_that_ok E s p p' q q' : zips E p p' q q' s -> trim_that (rev s) q' = (rev (trimmed is_that s), stop0 q (trimmed is_this (swap s))).
Proof.
  intros H. rewrite trim_that_swap. replace (swap (rev s)) with (rev (swap s)) by (unfold swap; rewrite map_rev; reflexivity).
  assert (H2 : zips (fun a b => E b a) q q' p p' (swap s)) by (eapply zips_swap; [|exact H]; auto).
  rewrite (trim_this_ok _ _ _ _ _ _ H2). cbn [fst snd]. rewrite trimmed_swap. unfold swap. rewrite map_rev. reflexivity.
Qed.

Section Level.
Context {X : Type} {OX : Ord X}.
Variables G0 G1 : list (list X).
Hypothesis HN0 : Forall (fun g => g <> []) G0.
Hypothesis HN1 : Forall (fun g => g <> []) G1.
Local Notation A0 := (concat G0).
Local Notation A1 := (concat G1).

Lemma group_that i j s : j < length G1 -> zips (same A0 A1) (off G0 i) (off G0 (S i)) (off G1 j) (off G1 (S j)) s -> trimmed is_this s <> [].
Proof.
  intros Hj Hz E. apply trimmed_all in E. apply (zips_this _ _ _ _ _ _ Hz) in E. assert (off G1 j < off G1 (S j)) by (apply off_lt; auto). lia.
Qed.
Lemma refines_nonempty S S' gs : refines G0 G1 S S' gs -> S <> [] -> S' <> [].
Proof.
  destruct 1 as [|l u S S' gs L B H|l u S S' gs L B H|i j s S S' gs Bi Bj Hz Hs H|i j s p0 q0 Bi Bj Hz Hp Hq Hn Hs]; intros N; try congruence; try discriminate.
  intros E. apply app_eq_nil in E as [E _]. apply group_that in Hz; auto. rewrite E in Hz. auto.
Qed.
Lemma trim_refines S S' gs : full G0 G1 S S' gs -> exists gs', refines G0 G1 (trimmed is_this S) (trimmed is_this S') gs'.
Proof.
  induction 1 as [|l u S S' gs L B H (gs' & IH)|l u S S' gs L B H (gs' & IH)|i j s S S' gs Bi Bj Hz Hs H (gs' & IH)].
  - exists []. constructor.
  - cbn [trimmed is_this]. destruct (trimmed is_this S) as [|r s0] eqn:E.
    + inversion IH; subst. exists []. constructor.
    + assert (N : trimmed is_this S' <> []) by (eapply refines_nonempty; eauto; discriminate). destruct (trimmed is_this S') as [|r' s0'] eqn:E'; [congruence|].
      eexists. constructor; eauto.
  - cbn [trimmed is_this]. destruct (trimmed is_this S) as [|r s0] eqn:E.
    + inversion IH; subst. eexists. constructor; auto. constructor.
    + assert (N : trimmed is_this S' <> []) by (eapply refines_nonempty; eauto; discriminate). destruct (trimmed is_this S') as [|r' s0'] eqn:E'; [congruence|].
      eexists. constructor; eauto.
  - rewrite trimmed_app. cbn [trimmed is_this]. destruct (trimmed is_this S) as [|r s0] eqn:E.
    + inversion IH as [E1 E2 E3| | | |]; subst. destruct (trimmed_split is_this s) as (th & Es & Hth). pose proof (group_that i j s Bj Hz) as N. rewrite Es in Hz. apply zips_app in Hz as (a & b & Z1 & Z2).
      pose proof (zips_le _ _ _ _ _ _ Z2) as [L1 L2]. eexists. eapply rf_last; eauto. rewrite Es, read_app in Hs. apply strictly_sorted_app in Hs. tauto.
    + assert (N : trimmed is_this S' <> []) by (eapply refines_nonempty; eauto; discriminate). destruct (trimmed is_this S') as [|r' s0'] eqn:E'; [congruence|].
      eexists. constructor; eauto.
Qed.
(** Where the trimmed surveys stop. *)
Definition stops (S S' : list Report) (a a' : nat) : Prop :=
  a' = off G0 a \/
  exists i j s0, S = s0 ++ [Both i j] /\ a = Datatypes.S i /\ off G0 i <= a' /\ a' < off G0 (Datatypes.S i) /\ (forall s1 x y, S' = s1 ++ [Both x y] -> off G0 i <= x).
Lemma snoc_inv {Y} (a b : list Y) (x y : Y) : a ++ [x] = b ++ [y] -> a = b /\ x = y.
Proof. apply app_inj_tail. Qed.
Lemma trim_stops S S' gs : full G0 G1 S S' gs -> forall E p p' q q', zips E p p' q q' S ->
  stops (trimmed is_this S) (trimmed is_this S') (stop0 p (trimmed is_this S)) (stop0 (off G0 p) (trimmed is_this S')).
Proof.
  assert (C : forall r r' s s' a a', s <> [] -> s' <> [] -> stops s s' a a' -> stops (r :: s) (r' ++ s') a a').
  { intros r r' s s' a a' N N' [H|(i & j & s0 & E1 & E2 & E3 & E4 & E5)]; [left; auto|]. right. exists i, j, (r :: s0). rewrite E1. repeat split; auto.
    intros s1 x y Es. destruct s' as [|y0 s' _] using rev_ind; [congruence|]. rewrite app_assoc in Es. apply snoc_inv in Es as [_ ->]. eapply E5. reflexivity. }
  induction 1 as [|l u S S' gs L B H IH|l u S S' gs L B H IH|i j s S S' gs Bi Bj Hz Hs H IH]; intros E p p' q q' HZ.
  - left. reflexivity.
  - inversion HZ; subst. destruct (trim_refines _ _ _ H) as (gs' & HR). match goal with HZ : zips _ _ _ _ _ S |- _ => specialize (IH _ _ _ _ _ HZ) end.
    cbn [trimmed is_this]. destruct (trimmed is_this S) as [|r s0] eqn:E1.
    + inversion HR; subst. left. reflexivity.
    + assert (N : trimmed is_this S' <> []) by (eapply refines_nonempty; eauto; discriminate). destruct (trimmed is_this S') as [|r' s0'] eqn:E'; [congruence|].
      apply (C _ [This _ _]); try discriminate. exact IH.
  - inversion HZ; subst. destruct (trim_refines _ _ _ H) as (gs' & HR). match goal with HZ : zips _ _ _ _ _ S |- _ => specialize (IH _ _ _ _ _ HZ) end.
    cbn [trimmed is_this]. destruct (trimmed is_this S) as [|r s0] eqn:E1.
    + inversion HR; subst. left. reflexivity.
    + assert (N : trimmed is_this S' <> []) by (eapply refines_nonempty; eauto; discriminate). destruct (trimmed is_this S') as [|r' s0'] eqn:E'; [congruence|].
      apply (C _ [That _ _]); try discriminate. exact IH.
  - inversion HZ; subst. destruct (trim_refines _ _ _ H) as (gs' & HR). match goal with HZ : zips _ _ _ _ _ S |- _ => specialize (IH _ _ _ _ _ HZ) end.
    rewrite trimmed_app. cbn [trimmed is_this]. destruct (trimmed is_this S) as [|r s0] eqn:E1.
    + inversion HR; subst. destruct (trimmed_split is_this s) as (th & Es & Hth). rewrite Es in Hz. apply zips_app in Hz as (a & b & Z1 & Z2). pose proof (zips_le _ _ _ _ _ _ Z2) as [L1 L2]. pose proof (zips_le _ _ _ _ _ _ Z1) as [L3 L4].
      rewrite (zips_stop _ _ _ _ _ _ Z1). cbn [stop0]. destruct (Nat.eq_dec a (off G0 (Datatypes.S i))) as [->|Ne]; [left; reflexivity|]. right. exists i, j, []. repeat split; auto; try lia.
      intros s1 x y Ex. rewrite Ex in Z1. apply zips_app in Z1 as (a1 & b1 & Z1 & Z3). inversion Z3; subst. apply zips_le in Z1. lia.
    + assert (N : trimmed is_this S' <> []) by (eapply refines_nonempty; eauto; discriminate). destruct (trimmed is_this S') as [|r' s0'] eqn:E'; [congruence|].
      rewrite stop0_app, (zips_stop _ _ _ _ _ _ Hz). apply (C _ s); try discriminate. exact IH.
Qed.
(** The parent of an item of the layer. *)
Definition parent (i a : nat) : Prop := i < length G0 /\ off G0 i <= a /\ a < off G0 (S i).
Lemma nudge_down_down a x : 0 < a -> a <= length G0 -> x < off G0 a -> nudge_down (ls_bounds (lists_of G0)) a x = Some (a - 1).
Proof.
  intros H1 H2 H3. unfold nudge_down. replace (length (ls_bounds (lists_of G0))) with (length G0) by (cbn; rewrite ends_length; reflexivity).
  destruct (Nat.eqb_spec a (length G0)) as [->|Ne].
  - destruct (length G0) as [|n]; [lia|]. f_equal. lia.
  - rewrite child_range_ok by lia. rewrite (proj2 (Nat.ltb_lt _ _)) by lia. destruct a as [|a]; [lia|]. f_equal. lia.
Qed.
Lemma nudge_down_item s s' a a' : stops s s' a a' -> a <= length G0 -> a' < length A0 ->
  exists i, nudge_down (ls_bounds (lists_of G0)) a a' = Some i /\ parent i a' /\ (i = a \/ (S i = a /\ exists s0 j, s = s0 ++ [Both i j])).
Proof.
  intros [->|(i & j & s0 & Es & -> & H1 & H2 & H3)] Ha Hl.
  - assert (La : a < length G0) by (destruct (Nat.eq_dec a (length G0)) as [->|]; [rewrite off_all in Hl by lia; lia|lia]).
    exists a. unfold nudge_down. replace (length (ls_bounds (lists_of G0))) with (length G0) by (cbn; rewrite ends_length; reflexivity). rewrite (proj2 (Nat.eqb_neq _ _)) by lia.
    rewrite child_range_ok by lia. rewrite Nat.ltb_irrefl. split; auto. split; [|auto]. split; auto. split; auto. apply off_lt; auto.
  - exists i. rewrite nudge_down_down by lia. split; [f_equal; lia|]. split; [split; [lia|auto]|]. right. split; auto. eauto.
Qed.
Lemma nudge_down_before s s' a a' x : stops s s' a a' -> a <= length G0 -> S x = a' -> (exists s0 j, s' = s0 ++ [Both x j]) -> exists i, nudge_down (ls_bounds (lists_of G0)) a x = Some i /\ parent i x.
Proof.
  intros [->|(i & j & s0 & Es & -> & H1 & H2 & H3)] Ha Ex (s1 & y & Es').
  - destruct a as [|a]; [rewrite off_0 in Ex; lia|]. assert (off G0 a < off G0 (S a)) by (apply off_lt; auto; lia). exists a. rewrite nudge_down_down by lia. split; [f_equal; lia|]. split; [lia|]. lia.
  - exists i. rewrite nudge_down_down by lia. split; [f_equal; lia|]. split; [lia|]. split; [|lia]. eapply H3. eauto.
Qed.
End Level.
