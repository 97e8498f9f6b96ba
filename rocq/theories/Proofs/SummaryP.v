(** Path summaries over PointStamps act coordinate by coordinate. *)
From Verif Require Import Model.PointStampM Spec.PointStampSpec Proofs.PointStampP.
From Verif Require Import Base.Order Base.Arrays.

Section Summary.
Context {T Sm : Type} {TT : Time T}.
Variable ri : Sm -> T -> option T.
Variable fb : Sm -> Sm -> option Sm.
Variable sle : Sm -> Sm -> bool.
Variable sdef : Sm.
Hypothesis laws : summary_laws ri fb sle sdef.

Local Notation act := (coord_action ri).
Local Notation summary := (PointStampSummary Sm).

Lemma mapO_spec {A B} (f : A -> option B) l r : mapO f l = Some r <->
  length r = length l /\ forall i x, nth_error l i = Some x -> exists y, nth_error r i = Some y /\ f x = Some y.
Proof.
  revert r. induction l as [|x l IH]; intros r; simpl.
  - split; [intros [= <-]; split; auto; intros [] ? ?; discriminate|]. intros (H & _). destruct r; [auto|discriminate].
  - split.
    + destruct (f x) as [y|] eqn:Ex; simpl; [|discriminate]. destruct (mapO f l) as [r'|] eqn:Er; simpl; [|discriminate]. intros [= <-].
      destruct (proj1 (IH r') eq_refl) as (Hl & Hn). split; [simpl; auto|]. intros [|i] z; simpl; [intros [= <-]; eauto|apply Hn].
    + intros (Hl & Hn). destruct (Hn 0 x eq_refl) as (y & Hy & ->). destruct r as [|y' r]; [discriminate|]. injection Hy as ->. simpl.
      assert (mapO f l = Some r) as ->; [|reflexivity]. apply IH. split; [simpl in Hl; lia|]. intros i z Hz. exact (Hn (S i) z Hz).
Qed.

Lemma mapO_none {A B} (f : A -> option B) l : mapO f l = None <-> exists i x, nth_error l i = Some x /\ f x = None.
Proof.
  induction l as [|x l IH]; simpl.
  - split; [discriminate|]. intros ([|i] & x & H & _); discriminate.
  - destruct (f x) as [y|] eqn:Ex; simpl.
    + destruct (mapO f l) as [r|] eqn:Er; simpl.
      * split; [discriminate|]. intros ([|i] & z & H1 & H2); simpl in H1; [congruence|].
        destruct IH as [_ IH]. discriminate IH. eauto.
      * split; auto. intros _. destruct IH as [IH _]. destruct (IH eq_refl) as (i & z & H). exists (S i), z. auto.
    + split; auto. intros _. exists 0, x. auto.
Qed.

Lemma slice_to_coord r (v : list T) i :
  coord (slice_to r v) i = match r with Some r => if i <? r then coord v i else tmin | None => coord v i end.
Proof.
  destruct r as [r|]; simpl; [|reflexivity]. destruct (Nat.ltb_spec r (length v)).
  - apply coord_firstn.
  - destruct (Nat.ltb_spec i r); [reflexivity|]. apply coord_beyond. lia.
Qed.

Lemma combine_nth {A B} (a : list A) (b : list B) i x y :
  nth_error (combine a b) i = Some (x, y) <-> nth_error a i = Some x /\ nth_error b i = Some y.
Proof.
  revert b i. induction a as [|z a IH]; intros [|w b] [|i]; simpl; try (split; [discriminate|intros (?&?); discriminate]).
  - split; [intros [= <- <-]; auto|intros ([= <-] & [= <-]); auto].
  - apply IH.
Qed.

Lemma nth_error_skip {A} (l : list A) n i : nth_error (skipn n l) i = nth_error l (n + i).
Proof. revert l. induction n as [|n IH]; intros l; [reflexivity|]. destruct l; [destruct i; reflexivity|apply IH]. Qed.

Lemma nth_error_coord (v : list T) i x : nth_error v i = Some x -> coord v i = x.
Proof. apply nth_error_nth. Qed.
Lemma coord_nth_error (v : list T) i : i < length v -> nth_error v i = Some (coord v i).
Proof. intros H. apply nth_error_nth'. exact H. Qed.

(** [results_in] yields [u] exactly when [u] is minimal and each coordinate is acted upon as specified. *)
Lemma results_in_spec (s : summary) v u :
  pss_results_in ri s v = Some u <-> minimal u /\ forall i, act (retain s) (actions s) v i = Some (coord u i).
Proof.
  unfold pss_results_in. cbn zeta. set (ts := slice_to (retain s) v). set (n := Nat.min (length ts) (length (actions s))).
  assert (HA : forall i, act (retain s) (actions s) v i =
            match nth_error (actions s) i with Some a => ri a (coord ts i) | None => Some (coord ts i) end).
  { intros i. unfold coord_action. rewrite <- slice_to_coord. reflexivity. }
  assert (HC : forall i, i < n -> exists a, nth_error (actions s) i = Some a /\ nth_error (combine (actions s) ts) i = Some (a, coord ts i)).
  { intros i Hi. destruct (nth_error (actions s) i) as [a|] eqn:Ea; [|apply nth_error_None in Ea; lia]. exists a. split; auto.
    apply combine_nth. split; auto. apply coord_nth_error. lia. }
  assert (HS : forall i a, nth_error (skipn n (actions s)) i = Some a -> nth_error (actions s) (n + i) = Some a /\ coord ts (n + i) = tmin).
  { intros i a. rewrite nth_error_skip. intros H. split; auto. apply coord_beyond.
    assert (n + i < length (actions s)) by (apply nth_error_Some; rewrite H; discriminate). lia. }
  destruct (mapO (fun x => ri (fst x) (snd x)) (combine (actions s) ts)) as [both|] eqn:Eb; simpl.
  2: { split; [discriminate|]. intros (_ & H). apply mapO_none in Eb as (i & (a & t) & Hi & Hn). simpl in Hn.
       apply combine_nth in Hi as (Ha & Ht). specialize (H i). rewrite HA, Ha, (nth_error_coord _ _ _ Ht) in H. congruence. }
  destruct (mapO (fun a => ri a tmin) (skipn n (actions s))) as [rest|] eqn:Er; simpl.
  2: { split; [discriminate|]. intros (_ & H). apply mapO_none in Er as (i & a & Hi & Hn). apply HS in Hi as (Hi & Hc).
       specialize (H (n + i)). rewrite HA, Hi, Hc in H. congruence. }
  apply mapO_spec in Eb as (Lb & Hb). apply mapO_spec in Er as (Lr & Hr).
  assert (Lb' : length both = n) by (rewrite Lb, combine_length; unfold n; lia).
  assert (HH : forall i, act (retain s) (actions s) v i = Some (coord (both ++ skipn n ts ++ rest) i)).
  { intros i. rewrite HA. destruct (Nat.lt_ge_cases i n) as [Hi|Hi].
    - rewrite coord_app1 by lia. destruct (HC i Hi) as (a & -> & Hc). destruct (Hb _ _ Hc) as (y & Hy & E). simpl in E.
      rewrite E. f_equal. symmetry. apply nth_error_coord; auto.
    - rewrite coord_app2 by lia. rewrite Lb'. destruct (Nat.le_ge_cases (length ts) (length (actions s))) as [Hl|Hl].
      + assert (n = length ts) by lia. rewrite (skipn_all2 ts) by lia. simpl.
        destruct (nth_error (actions s) i) as [a|] eqn:Ea.
        * assert (Hk : nth_error (skipn n (actions s)) (i - n) = Some a) by (rewrite nth_error_skip; replace (n + (i - n)) with i by lia; auto).
          destruct (Hr _ _ Hk) as (y & Hy & E). rewrite (coord_beyond ts) by lia. rewrite E. f_equal. symmetry. apply nth_error_coord; auto.
        * apply nth_error_None in Ea. rewrite (coord_beyond ts) by lia. rewrite coord_beyond; auto. rewrite Lr, skipn_length. lia.
      + assert (n = length (actions s)) by lia. assert (rest = []) as -> by (destruct rest; auto; rewrite skipn_length in Lr; simpl in Lr; lia).
        rewrite app_nil_r, coord_skipn. replace (n + (i - n)) with i by lia.
        destruct (nth_error (actions s) i) as [a|] eqn:Ea; auto.
        assert (i < length (actions s)) by (apply nth_error_Some; rewrite Ea; discriminate). lia. }
  split.
  - intros [= <-]. split; [apply ps_new_minimal|]. intros i. rewrite ps_new_coord. apply HH.
  - intros (Hm & Hu). f_equal. apply ps_ext; auto using ps_new_minimal. intros i. rewrite ps_new_coord. specialize (Hu i). rewrite HH in Hu. congruence.
Qed.

Lemma results_in_none (s : summary) v : pss_results_in ri s v = None <-> exists i, act (retain s) (actions s) v i = None.
Proof.
  destruct (pss_results_in ri s v) as [u|] eqn:E.
  - apply results_in_spec in E as (_ & E). split; [discriminate|]. intros (i & Hi). rewrite E in Hi. discriminate.
  - split; auto. intros _. unfold pss_results_in in E. cbn zeta in E.
    set (ts := slice_to (retain s) v) in *. set (n := Nat.min (length ts) (length (actions s))) in *.
    destruct (mapO (fun x => ri (fst x) (snd x)) (combine (actions s) ts)) as [both|] eqn:Eb; simpl in E.
    + destruct (mapO (fun a => ri a tmin) (skipn n (actions s))) as [rest|] eqn:Er; simpl in E; [discriminate|].
      apply mapO_none in Er as (i & a & Hi & Hn). exists (n + i). rewrite nth_error_skip in Hi. unfold coord_action.
      rewrite <- slice_to_coord. fold ts. rewrite Hi, coord_beyond; auto.
      assert (n + i < length (actions s)) by (apply nth_error_Some; rewrite Hi; discriminate). lia.
    + apply mapO_none in Eb as (i & (a & t) & Hi & Hn). exists i. apply combine_nth in Hi as (Ha & Ht). unfold coord_action.
      rewrite <- slice_to_coord. fold ts. rewrite Ha, (nth_error_coord _ _ _ Ht). auto.
Qed.

(** *** Monotone *)
Lemma results_in_mono (s : summary) v v' u' : ps_le v v' = true -> pss_results_in ri s v' = Some u' ->
  exists u, pss_results_in ri s v = Some u /\ ps_le u u' = true.
Proof.
  intros Hl Hu'. apply results_in_spec in Hu' as (Hm' & Hu').
  assert (HX : forall i, exists y, act (retain s) (actions s) v i = Some y /\ tle y (coord u' i) = true).
  { intros i. specialize (Hu' i). unfold coord_action in *. rewrite ps_le_spec in Hl.
    assert (Hc : tle (match retain s with Some r => if i <? r then coord v i else tmin | None => coord v i end)
                     (match retain s with Some r => if i <? r then coord v' i else tmin | None => coord v' i end) = true).
    { destruct (retain s) as [r|]; [|apply Hl]. destruct (i <? r); [apply Hl|apply tle_refl]. }
    destruct (nth_error (actions s) i) as [a|].
    - eapply sl_mono; eauto.
    - injection Hu' as <-. eauto. }
  destruct (pss_results_in ri s v) as [u|] eqn:Eu.
  - exists u. split; auto. apply results_in_spec in Eu as (_ & Eu). apply ps_le_spec. intros i. destruct (HX i) as (y & E & Hy).
    rewrite Eu in E. injection E as ->. auto.
  - apply results_in_none in Eu as (i & Ei). destruct (HX i) as (y & E & _). congruence.
Qed.

Lemma results_in_le (s s' : summary) v u' : pss_le sle s s' = true -> pss_results_in ri s' v = Some u' ->
  exists u, pss_results_in ri s v = Some u /\ ps_le u u' = true.
Proof.
  unfold pss_le. rewrite !andb_true_iff. intros ((Hr & Hl) & Ha) Hu'. apply results_in_spec in Hu' as (Hm' & Hu').
  assert (Er : retain s = retain s').
  { destruct (retain s), (retain s'); simpl in Hr; try discriminate; auto. apply Nat.eqb_eq in Hr. congruence. }
  apply Nat.leb_le in Hl. rewrite forallb_forall in Ha.
  assert (HX : forall i, exists y, act (retain s) (actions s) v i = Some y /\ tle y (coord u' i) = true).
  { intros i. specialize (Hu' i). unfold coord_action in *. rewrite Er.
    set (c := match retain s' with Some r => if i <? r then coord v i else tmin | None => coord v i end) in *.
    destruct (nth_error (actions s) i) as [a|] eqn:E1; destruct (nth_error (actions s') i) as [a'|] eqn:E2.
    - eapply sl_le; eauto. apply (Ha (a, a')). eapply nth_error_In. apply combine_nth. eauto.
    - apply nth_error_None in E2. assert (i < length (actions s)) by (apply nth_error_Some; rewrite E1; discriminate). lia.
    - exists c. split; auto. eapply sl_extensive; eauto.
    - injection Hu' as <-. exists c. split; [reflexivity|apply tle_refl]. }
  destruct (pss_results_in ri s v) as [u|] eqn:Eu.
  - exists u. split; auto. apply results_in_spec in Eu as (_ & Eu). apply ps_le_spec. intros i. destruct (HX i) as (y & E & Hy).
    rewrite Eu in E. injection E as ->. auto.
  - apply results_in_none in Eu as (i & Ei). destruct (HX i) as (y & E & _). congruence.
Qed.

(** *** Composition *)
Definition min_retain (a b : option nat) : option nat :=
  match a, b with Some x, Some y => Some (Nat.min x y) | Some x, None => Some x | None, Some y => Some y | None, None => None end.

Lemma slice_to_nth {A} r (l : list A) i :
  nth_error (slice_to r l) i = match r with Some r => if i <? r then nth_error l i else None | None => nth_error l i end.
Proof.
  destruct r as [r|]; simpl; auto. destruct (Nat.ltb_spec r (length l)).
  - destruct (Nat.ltb_spec i r).
    + clear H. revert l i H0. induction r as [|r IH]; intros l [|i] H; try lia; destruct l; simpl; auto. apply IH. lia.
    + apply nth_error_None. rewrite firstn_length. lia.
  - destruct (Nat.ltb_spec i r); auto. apply nth_error_None. lia.
Qed.

(** The action of the composition on coordinate [i], given what the two summaries do there. *)
Lemma followed_by_nth (s o c : summary) : pss_followed_by fb s o = Some c ->
  retain c = min_retain (retain s) (retain o) /\
  forall i, nth_error (actions c) i =
    match nth_error (slice_to (retain o) (actions s)) i, nth_error (actions o) i with
    | Some a, Some b => fb a b
    | Some a, None => Some a
    | None, Some b => Some b
    | None, None => None
    end.
Proof.
  unfold pss_followed_by. cbn zeta. set (sa := slice_to (retain o) (actions s)). set (n := Nat.min (length sa) (length (actions o))).
  destruct (mapO (fun x => fb (fst x) (snd x)) (combine sa (actions o))) as [both|] eqn:Eb; simpl; [|discriminate]. intros [= <-].
  split; [destruct (retain s), (retain o); reflexivity|]. simpl. intros i. apply mapO_spec in Eb as (Lb & Hb).
  assert (Ln : length both = n) by (rewrite Lb, combine_length; auto).
  destruct (Nat.lt_ge_cases i n) as [Hi|Hi].
  - rewrite nth_error_app1 by lia. destruct (nth_error sa i) as [a|] eqn:Ea; [|apply nth_error_None in Ea; lia].
    destruct (nth_error (actions o) i) as [b|] eqn:Eo; [|apply nth_error_None in Eo; lia].
    destruct (Hb i (a, b)) as (y & Hy & E); [apply combine_nth; auto|]. simpl in E. congruence.
  - rewrite nth_error_app2 by lia. rewrite Ln. destruct (Nat.le_ge_cases (length sa) (length (actions o))) as [Hl|Hl].
    + rewrite (skipn_all2 sa) by lia. simpl. rewrite nth_error_skip. replace (n + (i - n)) with i by lia.
      assert (nth_error sa i = None) as -> by (apply nth_error_None; lia). destruct (nth_error (actions o) i); auto.
    + rewrite (skipn_all2 (actions o)) by lia. rewrite app_nil_r, nth_error_skip. replace (n + (i - n)) with i by lia.
      assert (nth_error (actions o) i = None) as -> by (apply nth_error_None; lia). destruct (nth_error sa i); auto.
Qed.

Lemma followed_by_none (s o : summary) : pss_followed_by fb s o = None <->
  exists i a b, nth_error (slice_to (retain o) (actions s)) i = Some a /\ nth_error (actions o) i = Some b /\ fb a b = None.
Proof.
  unfold pss_followed_by. cbn zeta.
  destruct (mapO (fun x => fb (fst x) (snd x)) (combine (slice_to (retain o) (actions s)) (actions o))) as [both|] eqn:Eb; simpl.
  - split; [discriminate|]. intros (i & a & b & H1 & H2 & H3).
    assert (E : mapO (fun x => fb (fst x) (snd x)) (combine (slice_to (retain o) (actions s)) (actions o)) = None); [|congruence].
    apply mapO_none. exists i, (a, b). split; auto. apply combine_nth; auto.
  - split; auto. intros _. apply mapO_none in Eb as (i & (a & b) & H1 & H2). apply combine_nth in H1 as (H1 & H3). eauto 6.
Qed.

Definition then_ {A B} (x : option A) (f : A -> option B) : option B := match x with Some a => f a | None => None end.

(** Where the first summary acts and the second retains the coordinate, composition is exact. *)
Lemma compose_act (s o c : summary) v u i : pss_followed_by fb s o = Some c ->
  act (retain s) (actions s) v i = Some (coord u i) ->
  act (retain c) (actions c) v i = act (retain o) (actions o) u i.
Proof.
  intros Hc Hu. pose proof Hc as Hc0. apply followed_by_nth in Hc as (Hr & Ha). unfold coord_action in *. rewrite Hr, Ha, slice_to_nth.
  set (cs := match retain s with Some r => if i <? r then coord v i else tmin | None => coord v i end) in *.
  assert (Hout : forall r, retain o = Some r -> r <= i ->
    match min_retain (retain s) (retain o) with Some r => if i <? r then coord v i else tmin | None => coord v i end = tmin).
  { intros r -> Hi. destruct (retain s) as [r'|]; simpl; [|destruct (Nat.ltb_spec i r); auto; lia].
    destruct (Nat.ltb_spec i (Nat.min r' r)); auto; lia. }
  assert (Hin : (match retain o with Some r => i <? r | None => true end) = true ->
    match min_retain (retain s) (retain o) with Some r => if i <? r then coord v i else tmin | None => coord v i end = cs).
  { unfold cs. destruct (retain s) as [r'|], (retain o) as [r|]; simpl; auto.
    - destruct (Nat.ltb_spec i r); [|discriminate]. intros _. destruct (Nat.ltb_spec i (Nat.min r' r)), (Nat.ltb_spec i r'); auto; lia.
    - intros ->. auto. }
  destruct (match retain o with Some r => i <? r | None => true end) eqn:Eo.
  - rewrite (Hin eq_refl). assert ((match retain o with Some r => if i <? r then nth_error (actions s) i else None | None => nth_error (actions s) i end) = nth_error (actions s) i) as ->.
    { destruct (retain o) as [r|]; auto. rewrite Eo. auto. }
    assert ((match retain o with Some r => if i <? r then coord u i else tmin | None => coord u i end) = coord u i) as ->.
    { destruct (retain o) as [r|]; auto. rewrite Eo. auto. }
    destruct (nth_error (actions s) i) as [a|] eqn:Ea.
    + destruct (nth_error (actions o) i) as [b|] eqn:Eb; auto.
      pose proof (sl_compose _ _ _ _ laws a b cs) as HL. destruct (fb a b) as [ab|] eqn:Eab.
      * rewrite HL, Hu. auto.
      * exfalso. pose proof (Ha i) as Hai. rewrite slice_to_nth in Hai.
        assert ((match retain o with Some r => if i <? r then nth_error (actions s) i else None | None => nth_error (actions s) i end) = Some a) as Hx.
        { destruct (retain o) as [r|]; auto. rewrite Eo. auto. }
        rewrite Hx, Eb in Hai. clear HL. assert (pss_followed_by fb s o = None) as HN.
        { apply followed_by_none. exists i, a, b. split; [|auto]. rewrite slice_to_nth. exact Hx. }
        clear - HN Hc0. congruence.
    + injection Hu as Hu. rewrite Hu. destruct (nth_error (actions o) i); auto.
  - destruct (retain o) as [r|] eqn:Er; [|discriminate]. rewrite Eo. rewrite (Hout r eq_refl) by (apply Nat.ltb_ge; auto).
    destruct (nth_error (actions o) i); auto.
Qed.

(** If both summaries apply in turn then so does the composition, with the same result. *)
Lemma compose_some (s o : summary) v u w : pss_results_in ri s v = Some u -> pss_results_in ri o u = Some w ->
  exists c, pss_followed_by fb s o = Some c /\ pss_results_in ri c v = Some w.
Proof.
  intros Hu Hw. apply results_in_spec in Hu as (Hm & Hu). apply results_in_spec in Hw as (Hmw & Hw).
  destruct (pss_followed_by fb s o) as [c|] eqn:Ec.
  - exists c. split; auto. apply results_in_spec. split; auto. intros i. rewrite <- Hw. eapply compose_act; eauto.
  - exfalso. apply followed_by_none in Ec as (i & a & b & H1 & H2 & H3). specialize (Hu i). specialize (Hw i). rewrite slice_to_nth in H1.
    pose proof (sl_compose _ _ _ _ laws a b) as HL. rewrite H3 in HL. unfold coord_action in Hu, Hw.
    assert (Ho : (match retain o with Some r => i <? r | None => true end) = true).
    { destruct (retain o) as [r|]; auto. destruct (i <? r); [auto|discriminate H1]. }
    assert (nth_error (actions s) i = Some a) as Ha.
    { destruct (retain o) as [r|]; auto. rewrite Ho in H1. auto. }
    assert ((match retain o with Some r => if i <? r then coord u i else tmin | None => coord u i end) = coord u i) as Hc.
    { destruct (retain o) as [r|]; auto. rewrite Ho. auto. }
    rewrite Hc, H2 in Hw. rewrite Ha in Hu.
    specialize (HL (match retain s with Some r => if i <? r then coord v i else tmin | None => coord v i end)). rewrite Hu in HL. congruence.
Qed.

(** If the summaries never fail on a time, the composition is exact. *)
Lemma compose_total (s o c : summary) v : (forall a t, ri a t <> None) -> pss_followed_by fb s o = Some c ->
  pss_results_in ri c v = then_ (pss_results_in ri s v) (pss_results_in ri o).
Proof.
  intros HT Hc. assert (HN : forall x y, pss_results_in ri x y <> None).
  { intros x y E. apply results_in_none in E as (i & E). unfold coord_action in E. destruct (nth_error (actions x) i); [|discriminate]. eapply HT; eauto. }
  destruct (pss_results_in ri s v) as [u|] eqn:Eu; [|exfalso; eapply HN; eauto]. simpl.
  destruct (pss_results_in ri o u) as [w|] eqn:Ew; [|exfalso; eapply HN; eauto].
  destruct (compose_some _ _ _ _ _ Eu Ew) as (c' & Ec & E). congruence.
Qed.

(** *** Feedback and leaving *)
Lemma feedback_action level (sm : Sm) s v i : feedback_summary sdef level sm = Some s ->
  act (retain s) (actions s) v i = if S i =? level then ri sm (coord v i) else Some (coord v i).
Proof.
  destruct level as [|l]; simpl; [discriminate|]. intros [= <-]. unfold coord_action. simpl.
  destruct (Nat.eqb_spec i l) as [->|Hn].
  - rewrite nth_error_app2 by (rewrite repeat_length; lia). rewrite repeat_length, Nat.sub_diag. reflexivity.
  - destruct (Nat.lt_ge_cases i l).
    + rewrite nth_error_app1 by (rewrite repeat_length; lia). rewrite nth_error_repeat by lia. apply (sl_default _ _ _ _ laws).
    + assert (nth_error (repeat sdef l ++ [sm]) i = None) as ->; auto. apply nth_error_None. rewrite app_length, repeat_length. simpl. lia.
Qed.

Lemma leave_results level (s : summary) v : leave_summary level = Some s ->
  pss_results_in ri s v = Some (ps_new (firstn (level - 1) v)).
Proof.
  destruct level as [|l]; simpl; [discriminate|]. intros [= <-]. apply results_in_spec. split; [apply ps_new_minimal|].
  intros i. unfold coord_action. simpl. rewrite ps_new_coord, coord_firstn, Nat.sub_0_r. destruct i; reflexivity.
Qed.
End Summary.
