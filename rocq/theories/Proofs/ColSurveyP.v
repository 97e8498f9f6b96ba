(** * Surveys of two layers, and the layer written from them *)
From Coq Require Import Arith Lia.
From Verif Require Import Base.Arrays Base.Collections Model.ColumnarM Proofs.ContainerP Proofs.ColListsP.
From Verif Require Import Base.Order.

(** ** Galloping in a range *)
Section Gallop.
Context {X : Type}.
Variables (f : X -> bool) (l : list X).
Lemma probe_shift end_ lower i : probe f l 0 end_ (lower + i) = probe f l lower end_ i.
Proof. reflexivity. Qed.
Lemma grow_shift end_ lower fuel : forall i step,
  gallop_grow f fuel l 0 end_ (lower + i) step = match gallop_grow f fuel l lower end_ i step with Some (j, s) => Some (lower + j, s) | None => None end.
Proof.
  induction fuel as [|fuel IH]; intros i step; cbn [gallop_grow]; auto. rewrite <- Nat.add_assoc, probe_shift.
  destruct (probe f l lower end_ (i + step)) as [[]|]; auto.
Qed.
Lemma shrink_shift end_ lower fuel : forall i step,
  gallop_shrink f fuel l 0 end_ (lower + i) step = match gallop_shrink f fuel l lower end_ i step with Some j => Some (lower + j) | None => None end.
Proof.
  induction fuel as [|fuel IH]; intros i step; destruct step as [|step]; cbn [gallop_shrink]; auto. rewrite <- Nat.add_assoc, probe_shift.
  destruct (probe f l lower end_ (i + S step)) as [[]|]; auto; apply IH.
Qed.
Lemma gallop_range lower upper n : lower <= upper -> upper <= length l -> lower + n <= upper ->
  (forall i x, lower <= i < upper -> nth_error l i = Some x -> f x = (i <? lower + n)) -> gallop f l lower upper = Some (lower + n).
Proof.
  intros H1 H2 H3 Hf. unfold gallop. destruct (Nat.ltb_spec lower upper) as [L|L]; [|f_equal; lia].
  unfold get. destruct (nth_error l lower) as [x|] eqn:Ex; [|apply nth_error_None in Ex; lia]. rewrite (Hf _ _ (conj (Nat.le_refl _) L) Ex).
  destruct (Nat.ltb_spec lower (lower + n)) as [L2|L2]; [|f_equal; lia].
  destruct (grow_ok f l lower upper n H1 H2 H3 Hf (S upper) 0 0) as (i' & k' & E & B1 & B2); [lia|lia|].
  change (2 ^ 0) with 1 in E. pose proof (grow_shift upper lower (S upper) 0 1) as Eg. rewrite Nat.add_0_r, E in Eg. rewrite Eg.
  rewrite shrink_shift. destruct k' as [|k'].
  - change (2 ^ 0) with 1 in *. change (1 / 2) with 0. cbn [gallop_shrink]. f_equal. lia.
  - replace (2 ^ S k' / 2) with (2 ^ k') by (rewrite Nat.pow_succ_r', Nat.mul_comm, Nat.div_mul by lia; reflexivity).
    rewrite Nat.pow_succ_r' in *. rewrite (shrink_ok f l lower upper n) by (auto; lia). f_equal. lia.
Qed.
End Gallop.
Lemma gallop_sorted {X} {OX : Ord X} (l : list X) lower upper v : lower <= upper -> upper <= length l -> strictly_sorted (sub l lower upper) ->
  exists n, gallop (fun x => ltb x v) l lower upper = Some (lower + n) /\ lower + n <= upper /\
    Forall (fun x => lt x v) (sub l lower (lower + n)) /\ Forall (fun x => le v x) (sub l (lower + n) upper).
Proof.
  intros H1 H2 HS.
  assert (Hn : exists n, lower + n <= upper /\ forall i x, lower <= i < upper -> nth_error l i = Some x -> ltb x v = (i <? lower + n)).
  { remember (upper - lower) as m eqn:Em. revert lower H1 HS Em. induction m as [|m IH]; intros lower H1 HS Em.
    - exists 0. split; [lia|]. intros; lia.
    - destruct (get_some l lower) as (y & Ey); [lia|]. unfold get in Ey. rewrite (sub_cons l lower upper y Ey) in HS by lia. apply strictly_sorted_cons_inv in HS as [HS HF].
      destruct (ltb y v) eqn:El.
      + destruct (IH (S lower)) as (n & L & Hn); [lia|auto|lia|]. exists (S n). split; [lia|]. intros i x Hi Ex.
        destruct (Nat.eq_dec i lower) as [->|Ne]; [rewrite Ey in Ex; inversion Ex; subst; rewrite El; symmetry; apply Nat.ltb_lt; lia|].
        rewrite (Hn i x) by (auto; lia). replace (S lower + n) with (lower + S n) by lia. reflexivity.
      + exists 0. split; [lia|]. intros i x Hi Ex. rewrite Nat.add_0_r, (proj2 (Nat.ltb_ge _ _)) by lia. apply ltb_ge. apply ltb_ge in El.
        destruct (Nat.eq_dec i lower) as [->|Ne]; [rewrite Ey in Ex; inversion Ex; subst; auto|].
        rewrite Forall_forall in HF. eapply le_trans; [exact El|]. apply lt_le. apply HF. eapply sub_in; [|exact Ex]. lia. }
  destruct Hn as (n & L & Hn). exists n. split; [apply gallop_range; auto|]. split; auto. split; apply Forall_forall; intros x Hx; apply in_sub in Hx as (i & Hi & Ex).
  - apply ltb_lt. rewrite (Hn i x) by (auto; lia). apply Nat.ltb_lt. lia.
  - apply ltb_ge. rewrite (Hn i x) by (auto; lia). apply Nat.ltb_ge. lia.
Qed.

(** ** Surveys that interleave two ranges *)
Inductive zips (E : nat -> nat -> Prop) : nat -> nat -> nat -> nat -> list Report -> Prop :=
| z_nil p q : zips E p p q q []
| z_this p m p' q q' s : p < m -> zips E m p' q q' s -> zips E p p' q q' (This p m :: s)
| z_that p p' q m q' s : q < m -> zips E p p' m q' s -> zips E p p' q q' (That q m :: s)
| z_both p p' q q' s : E p q -> zips E (S p) p' (S q) q' s -> zips E p p' q q' (Both p q :: s).
Definition same {Y} (P0 P1 : list Y) (p q : nat) : Prop := exists x, nth_error P0 p = Some x /\ nth_error P1 q = Some x.
Definition read_one {Y} (P0 P1 : list Y) (r : Report) : list Y :=
  match r with This l u => sub P0 l u | That l u => sub P1 l u | Both i _ => sub P0 i (S i) end.
Definition read {Y} (P0 P1 : list Y) (s : list Report) : list Y := flat_map (read_one P0 P1) s.
Definition is_this (r : Report) : bool := match r with This _ _ => true | _ => false end.
Definition is_that (r : Report) : bool := match r with That _ _ => true | _ => false end.

Lemma zips_le E p p' q q' s : zips E p p' q q' s -> p <= p' /\ q <= q'.
Proof. induction 1; lia. Qed.
Lemma zips_app E s1 : forall p p' q q' s2, zips E p p' q q' (s1 ++ s2) <-> exists a b, zips E p a q b s1 /\ zips E a p' b q' s2.
Proof.
  induction s1 as [|r s1 IH]; intros p p' q q' s2; cbn [app].
  - split; [intros H; exists p, q; split; [constructor|auto]|]. intros (a & b & H1 & H2). inversion H1; subst. auto.
  - split.
    + intros H. inversion H; subst; match goal with H : zips _ _ _ _ _ (s1 ++ s2) |- _ => apply IH in H as (a & b & Ha & Hb) end; exists a, b; split; auto; constructor; auto.
    + intros (a & b & H1 & H2). inversion H1; subst; constructor; auto; apply IH; eauto.
Qed.
Lemma zips_impl (E E' : nat -> nat -> Prop) p p' q q' s : zips E p p' q q' s -> (forall a b, p <= a < p' -> q <= b < q' -> E a b -> E' a b) -> zips E' p p' q q' s.
Proof.
  induction 1; intros HE; constructor; auto.
  - apply IHzips. intros a b Ha Hb. apply HE; lia.
  - apply IHzips. intros a b Ha Hb. apply HE; lia.
  - apply zips_le in H0. apply HE; auto; lia.
  - apply IHzips. intros a b Ha Hb. apply HE; lia.
Qed.
Lemma zips_this E p p' q q' s : zips E p p' q q' s -> forallb is_this s = true -> q = q'.
Proof. induction 1; cbn; intros; try discriminate; auto. Qed.
Lemma zips_that E p p' q q' s : zips E p p' q q' s -> forallb is_that s = true -> p = p'.
Proof. induction 1; cbn; intros; try discriminate; auto. Qed.

Section Read.
Context {Y : Type}.
Variables P0 P1 : list Y.
Local Notation z := (zips (same P0 P1)).
Lemma read_app s1 s2 : read P0 P1 (s1 ++ s2) = read P0 P1 s1 ++ read P0 P1 s2.
Proof. apply flat_map_app. Qed.
Lemma read_in p p' q q' s x : z p p' q q' s -> In x (read P0 P1 s) -> In x (sub P0 p p') \/ In x (sub P1 q q').
Proof.
  induction 1 as [|p m p' q q' s L H IH|p p' q m q' s L H IH|p p' q q' s E H IH]; cbn [read flat_map]; intros Hx; [destruct Hx| | |];
    apply in_app_or in Hx as [Hx|Hx]; cbn [read_one] in *; apply zips_le in H as [L1 L2].
  - left. rewrite (sub_split P0 p m p') by lia. apply in_or_app. auto.
  - destruct (IH Hx) as [Hi|Hi]; auto. left. rewrite (sub_split P0 p m p') by lia. apply in_or_app. auto.
  - right. rewrite (sub_split P1 q m q') by lia. apply in_or_app. auto.
  - destruct (IH Hx) as [Hi|Hi]; auto. right. rewrite (sub_split P1 q m q') by lia. apply in_or_app. auto.
  - left. rewrite (sub_split P0 p (S p) p') by lia. apply in_or_app. auto.
  - destruct (IH Hx) as [Hi|Hi]; [left; rewrite (sub_split P0 p (S p) p') by lia|right; rewrite (sub_split P1 q (S q) q') by lia]; apply in_or_app; auto.
Qed.
Lemma read_has0 p p' q q' s x : z p p' q q' s -> In x (sub P0 p p') -> In x (read P0 P1 s).
Proof.
  induction 1 as [|p m p' q q' s L H IH|p p' q m q' s L H IH|p p' q q' s E H IH]; cbn [read flat_map read_one]; intros Hx; auto.
  - rewrite sub_nil in Hx. destruct Hx.
  - apply zips_le in H as [L1 L2]. rewrite (sub_split P0 p m p') in Hx by lia. apply in_app_or in Hx as [Hx|Hx]; apply in_or_app; auto.
  - apply in_or_app. auto.
  - apply zips_le in H as [L1 L2]. rewrite (sub_split P0 p (S p) p') in Hx by lia. apply in_app_or in Hx as [Hx|Hx]; apply in_or_app; auto.
Qed.
Lemma read_has1 p p' q q' s x : z p p' q q' s -> In x (sub P1 q q') -> In x (read P0 P1 s).
Proof.
  induction 1 as [|p m p' q q' s L H IH|p p' q m q' s L H IH|p p' q q' s E H IH]; cbn [read flat_map read_one]; intros Hx; auto.
  - rewrite sub_nil in Hx. destruct Hx.
  - apply in_or_app. auto.
  - apply zips_le in H as [L1 L2]. rewrite (sub_split P1 q m q') in Hx by lia. apply in_app_or in Hx as [Hx|Hx]; apply in_or_app; auto.
  - destruct E as (y & E0 & E1). apply zips_le in H as [L1 L2]. rewrite (sub_split P1 q (S q) q') in Hx by lia. rewrite (sub_one P1 q y E1) in Hx. rewrite (sub_one P0 p y E0).
    apply in_app_or in Hx as [Hx|Hx]; apply in_or_app; auto.
Qed.
Lemma read_length p p' q q' s : z p p' q q' s -> p' <= length P0 -> q' <= length P1 -> length (read P0 P1 s) <= (p' - p) + (q' - q).
Proof.
  induction 1 as [|p m p' q q' s L H IH|p p' q m q' s L H IH|p p' q q' s E H IH]; cbn [read flat_map read_one]; intros B0 B1; [cbn; lia| | |];
    specialize (IH B0 B1); unfold read in *; rewrite app_length, sub_length; apply zips_le in H; lia.
Qed.
End Read.

(** ** One layer *)
Section Layer.
Context {X : Type} {OX : Ord X}.
Variables G0 G1 : list (list X).
Local Notation A0 := (concat G0).
Local Notation A1 := (concat G1).
Local Notation l0 := (lists_of G0).
Local Notation l1 := (lists_of G1).

Lemma survey_both_ok fuel : forall lo0 hi0 lo1 hi1, lo0 <= hi0 -> hi0 <= length A0 -> lo1 <= hi1 -> hi1 <= length A1 ->
  strictly_sorted (sub A0 lo0 hi0) -> strictly_sorted (sub A1 lo1 hi1) -> (hi0 - lo0) + (hi1 - lo1) <= fuel ->
  exists s, survey_both fuel l0 l1 lo0 hi0 lo1 hi1 = Some s /\ zips (same A0 A1) lo0 hi0 lo1 hi1 s /\ strictly_sorted (read A0 A1 s).
Proof.
  induction fuel as [|fuel IH]; intros lo0 hi0 lo1 hi1 L0 B0 L1 B1 S0 S1 HF; cbn [survey_both];
    destruct (Nat.ltb_spec lo0 hi0) as [N0|N0], (Nat.ltb_spec lo1 hi1) as [N1|N1]; cbn [andb]; try lia.
  all: try (eexists; split; [reflexivity|]; cbn [app]; cbn [read flat_map read_one]; rewrite ?app_nil_r; split; [|auto; constructor];
    repeat match goal with H : ?a <= ?b, H' : ?b <= ?a |- _ => assert (a = b) by lia; clear H H'; subst a end; constructor; auto; constructor).
  unfold get. cbn [ls_values lists_of]. destruct (get_some A0 lo0) as (v0 & E0); [lia|]. destruct (get_some A1 lo1) as (v1 & E1); [lia|]. unfold get in *. rewrite E0, E1.
  pose proof S0 as S0'. pose proof S1 as S1'. rewrite (sub_cons A0 lo0 hi0 v0 E0) in S0 by lia. rewrite (sub_cons A1 lo1 hi1 v1 E1) in S1 by lia.
  apply strictly_sorted_cons_inv in S0 as [S0 F0]. apply strictly_sorted_cons_inv in S1 as [S1 F1].
  destruct (cmp_spec v0 v1) as [->|Hlt|Hlt].
  - destruct (IH (S lo0) hi0 (S lo1) hi1) as (s & Es & Hz & Hs); auto; try lia. replace (lo0 + 1) with (S lo0) by lia. replace (lo1 + 1) with (S lo1) by lia. rewrite Es.
    eexists. split; [reflexivity|]. split; [constructor; auto; exists v1; auto|]. cbn [read flat_map read_one]. rewrite (sub_one A0 lo0 v1 E0). cbn [app].
    apply strictly_sorted_cons; auto. apply Forall_forall. intros x Hx. eapply read_in in Hx; [|exact Hz]. rewrite Forall_forall in F0, F1. destruct Hx; auto.
  - destruct (gallop_sorted A0 (lo0 + 1) hi0 v1) as (n & En & Ln & Fn & _); [lia|lia|replace (lo0 + 1) with (S lo0) by lia; auto|].
    rewrite En. destruct (IH (lo0 + 1 + n) hi0 lo1 hi1) as (s & Es & Hz & Hs); auto; try lia.
    { rewrite (sub_split A0 lo0 (lo0 + 1 + n) hi0) in S0' by lia. apply strictly_sorted_app in S0'. tauto. }
    rewrite Es. eexists. split; [reflexivity|]. split; [constructor; auto; lia|]. cbn [read flat_map read_one]. apply strictly_sorted_app.
    rewrite (sub_split A0 lo0 (lo0 + 1 + n) hi0) in S0' by lia. apply strictly_sorted_app in S0' as (Sa & Sb & Sab). split; auto. split; auto.
    intros a b Ha Hb. eapply read_in in Hb; [|exact Hz]. destruct Hb as [Hb|Hb]; auto.
    assert (Hav : lt a v1). { rewrite (sub_cons A0 lo0 _ v0 E0) in Ha by lia. destruct Ha as [<-|Ha]; auto. rewrite Forall_forall in Fn. apply Fn. replace (lo0 + 1) with (S lo0) at 1 by lia. auto. }
    rewrite (sub_cons A1 lo1 hi1 v1 E1) in Hb by lia. destruct Hb as [<-|Hb]; auto. rewrite Forall_forall in F1. eapply lt_trans; eauto.
  - destruct (gallop_sorted A1 (lo1 + 1) hi1 v0) as (n & En & Ln & Fn & _); [lia|lia|replace (lo1 + 1) with (S lo1) by lia; auto|].
    rewrite En. destruct (IH lo0 hi0 (lo1 + 1 + n) hi1) as (s & Es & Hz & Hs); auto; try lia.
    { rewrite (sub_split A1 lo1 (lo1 + 1 + n) hi1) in S1' by lia. apply strictly_sorted_app in S1'. tauto. }
    rewrite Es. eexists. split; [reflexivity|]. split; [constructor; auto; lia|]. cbn [read flat_map read_one]. apply strictly_sorted_app.
    rewrite (sub_split A1 lo1 (lo1 + 1 + n) hi1) in S1' by lia. apply strictly_sorted_app in S1' as (Sa & Sb & Sab). split; auto. split; auto.
    intros a b Ha Hb. eapply read_in in Hb; [|exact Hz]. destruct Hb as [Hb|Hb]; auto.
    assert (Hav : lt a v0). { rewrite (sub_cons A1 lo1 _ v1 E1) in Ha by lia. destruct Ha as [<-|Ha]; auto. rewrite Forall_forall in Fn. apply Fn. replace (lo1 + 1) with (S lo1) at 1 by lia. auto. }
    rewrite (sub_cons A0 lo0 hi0 v0 E0) in Hb by lia. destruct Hb as [<-|Hb]; auto. rewrite Forall_forall in F0. eapply lt_trans; eauto.
Qed.

(** An item survey refines a list survey, and gives the lists [gs].  The items of the last pair of lists
    may be cut short. *)
Inductive refines : list Report -> list Report -> list (list X) -> Prop :=
| rf_nil : refines [] [] []
| rf_this l u S S' gs : l < u -> u <= length G0 -> refines S S' gs -> refines (This l u :: S) (This (off G0 l) (off G0 u) :: S') (sub G0 l u ++ gs)
| rf_that l u S S' gs : l < u -> u <= length G1 -> refines S S' gs -> refines (That l u :: S) (That (off G1 l) (off G1 u) :: S') (sub G1 l u ++ gs)
| rf_both i j s S S' gs : i < length G0 -> j < length G1 -> zips (same A0 A1) (off G0 i) (off G0 (Datatypes.S i)) (off G1 j) (off G1 (Datatypes.S j)) s ->
    strictly_sorted (read A0 A1 s) -> refines S S' gs -> refines (Both i j :: S) (s ++ S') (read A0 A1 s :: gs)
| rf_last i j s p q : i < length G0 -> j < length G1 -> zips (same A0 A1) (off G0 i) p (off G1 j) q s -> p <= off G0 (Datatypes.S i) -> q <= off G1 (Datatypes.S j) ->
    s <> [] -> strictly_sorted (read A0 A1 s) -> refines [Both i j] s [read A0 A1 s].

(** As [refines], with no list cut short. *)
Inductive full : list Report -> list Report -> list (list X) -> Prop :=
| fu_nil : full [] [] []
| fu_this l u S S' gs : l < u -> u <= length G0 -> full S S' gs -> full (This l u :: S) (This (off G0 l) (off G0 u) :: S') (sub G0 l u ++ gs)
| fu_that l u S S' gs : l < u -> u <= length G1 -> full S S' gs -> full (That l u :: S) (That (off G1 l) (off G1 u) :: S') (sub G1 l u ++ gs)
| fu_both i j s S S' gs : i < length G0 -> j < length G1 -> zips (same A0 A1) (off G0 i) (off G0 (Datatypes.S i)) (off G1 j) (off G1 (Datatypes.S j)) s ->
    strictly_sorted (read A0 A1 s) -> full S S' gs -> full (Both i j :: S) (s ++ S') (read A0 A1 s :: gs).
Lemma full_refines S S' gs : full S S' gs -> refines S S' gs.
Proof. induction 1; constructor; auto. Qed.

Definition cut (gs : list (list X)) (lo hi item_lo : nat) : list (list X) :=
  match sub gs lo hi with [] => [] | g :: r => skipn (item_lo - off gs lo) g :: r end.
Lemma cut_natural (gs : list (list X)) lo hi : cut gs lo hi (off gs lo) = sub gs lo hi.
Proof. unfold cut. rewrite Nat.sub_diag. destruct (sub gs lo hi); reflexivity. Qed.
Lemma write_range_pruned (gs out : list (list X)) lo hi item_lo : lo < hi -> hi <= length gs -> off gs lo <= item_lo -> item_lo <= off gs (S lo) ->
  write_range (lists_of gs) true lo hi item_lo (off gs hi) (lists_of out) = Some (lists_of (out ++ cut gs lo hi item_lo)).
Proof.
  intros L B H1 H2. unfold write_range. assert (Hm : off gs (S lo) <= off gs hi) by (apply off_mono; lia). assert (Hl := off_le gs hi).
  rewrite slice_ok by (cbn [ls_values lists_of]; lia). rewrite (clamp_ok gs _ lo hi item_lo (off gs hi) (hi - lo) lo) by (auto; lia).
  cbn [ls_values ls_bounds lists_of]. f_equal. unfold lists_of. rewrite ends_app, concat_app. destruct (get_some gs lo) as (g & Eg); [lia|]. unfold get in Eg.
  assert (Eo := off_S gs lo g Eg). f_equal.
  - f_equal. rewrite Nat.add_0_l. unfold cut. rewrite (sub_cons gs lo hi g Eg) by lia. replace (hi - lo) with (S (hi - S lo)) by lia. cbn [seq map ends].
    rewrite skipn_length. f_equal; [lia|]. replace (length (concat out) + (length g - (item_lo - off gs lo))) with (length (concat out) + off gs (S lo) - item_lo) by lia.
    assert (G : forall n m, m + n = hi -> lo < m -> map (fun j => length (concat out) + off gs (S j) - item_lo) (seq m n) = ends (length (concat out) + off gs m - item_lo) (sub gs m hi)).
    { induction n as [|n IH]; intros m E Lm; cbn [seq map]; [replace m with hi by lia; rewrite sub_nil; reflexivity|].
      destruct (get_some gs m) as (h & Eh); [lia|]. unfold get in Eh. rewrite (sub_cons gs m hi h Eh) by lia. cbn [ends]. assert (Em := off_S gs m h Eh).
      assert (off gs (S lo) <= off gs m) by (apply off_mono; lia). rewrite IH by lia. replace (length (concat out) + off gs m - item_lo + length h) with (length (concat out) + off gs (S m) - item_lo) by lia. reflexivity. }
    apply G; lia.
  - f_equal. unfold cut. rewrite (sub_cons gs lo hi g Eg) by lia. cbn [concat]. rewrite (sub_split _ item_lo (off gs (S lo)) (off gs hi)) by lia. rewrite (sub_concat gs (S lo) hi) by lia. f_equal.
    assert (Eg2 := sub_group gs lo g Eg). rewrite (sub_split _ (off gs lo) item_lo (off gs (S lo))) in Eg2 by lia. rewrite <- Eg2.
    assert (Hln : length (sub (concat gs) (off gs lo) item_lo) = item_lo - off gs lo) by (apply sub_length; lia).
    rewrite skipn_app, Hln, Nat.sub_diag. rewrite skipn_all2 by lia. reflexivity.
Qed.
Lemma write_range_ok (gs : list (list X)) pruned (out : list (list X)) lo hi : lo < hi -> hi <= length gs ->
  write_range (lists_of gs) pruned lo hi (off gs lo) (off gs hi) (lists_of out) = Some (lists_of (out ++ sub gs lo hi)).
Proof.
  intros L B. destruct pruned; [|apply extend_ok; lia]. rewrite write_range_pruned; auto; [|apply off_mono; lia]. rewrite cut_natural. reflexivity.
Qed.
Lemma write_both_ok end0 end1 rest (out : list (list X)) : forall s p p' q q' g, zips (same A0 A1) p p' q q' s -> p' <= end0 -> q' <= end1 -> end0 <= length A0 -> end1 <= length A1 ->
  (p' = end0 /\ q' = end1) \/ rest = [] -> write_both l0 l1 p end0 q end1 (s ++ rest) (open_of out g) = Some (rest, open_of out (g ++ read A0 A1 s)).
Proof.
  intros s p p' q q' g H. revert g. induction H as [p q|p m p' q q' s L H IH|p p' q m q' s L H IH|p p' q q' s E H IH]; intros g H0 H1 B0 B1 HR; cbn [app read flat_map].
  - rewrite app_nil_r. destruct HR as [[-> ->]| ->]; [|reflexivity]. destruct rest as [|r rest]; cbn [write_both]; auto. rewrite !Nat.ltb_irrefl. reflexivity.
  - pose proof (zips_le _ _ _ _ _ _ H) as [La Lb]. cbn [write_both]. rewrite (proj2 (Nat.ltb_lt p end0)) by lia. cbn [orb]. rewrite (proj2 (Nat.leb_gt end0 p)) by lia.
    cbn [ls_values lists_of]. rewrite slice_ok by lia. rewrite push_values_open, IH by auto. rewrite <- app_assoc. reflexivity.
  - pose proof (zips_le _ _ _ _ _ _ H) as [La Lb]. cbn [write_both]. rewrite (proj2 (Nat.ltb_lt q end1)) by lia. rewrite Bool.orb_true_r. rewrite (proj2 (Nat.leb_gt end1 q)) by lia.
    cbn [ls_values lists_of]. rewrite slice_ok by lia. rewrite push_values_open, IH by auto. rewrite <- app_assoc. reflexivity.
  - pose proof (zips_le _ _ _ _ _ _ H) as [La Lb]. cbn [write_both]. rewrite (proj2 (Nat.ltb_lt p end0)) by lia. cbn [orb]. rewrite (proj2 (Nat.leb_gt end0 p)) by lia. cbn [andb].
    destruct E as (x & E0 & E1). cbn [ls_values lists_of]. unfold get. rewrite E0. rewrite push_value_open. replace (p + 1) with (S p) by lia. replace (q + 1) with (S q) by lia. rewrite IH by auto.
    cbn [read_one]. rewrite (sub_one A0 p x E0), <- app_assoc. reflexivity.
Qed.
Lemma write_layer_ok S S' gs : refines S S' gs -> forall first out, write_layer_from first l0 l1 S S' (lists_of out) = Some (lists_of (out ++ gs)).
Proof.
  induction 1 as [|l u S S' gs L B H IH|l u S S' gs L B H IH|i j s S S' gs Bi Bj Hz Hs H IH|i j s p q Bi Bj Hz Hp Hq Hn Hs]; intros first out; cbn [write_layer_from].
  - rewrite app_nil_r. reflexivity.
  - rewrite write_range_ok by auto. rewrite IH, <- app_assoc. reflexivity.
  - rewrite write_range_ok by auto. rewrite IH, <- app_assoc. reflexivity.
  - rewrite !child_range_ok by auto. rewrite (lists_open out). rewrite (write_both_ok _ _ S' out s _ _ _ _ [] Hz); auto; try apply off_le. cbn [app]. rewrite seal_open, IH, <- app_assoc. reflexivity.
  - rewrite !child_range_ok by auto. rewrite (lists_open out). pose proof (write_both_ok (off G0 (Datatypes.S i)) (off G1 (Datatypes.S j)) [] out s _ _ _ _ [] Hz) as E. rewrite app_nil_r in E.
    rewrite E; auto; try apply off_le. cbn [app]. rewrite seal_open. reflexivity.
Qed.

Lemma path_at {A} (P : list A) (G : list (list X)) i a g : length P = length G -> nth_error P i = Some a -> nth_error G i = Some g -> forall lo hi, off G i <= lo -> lo <= hi -> hi <= off G (S i) ->
  sub (expand P G) lo hi = map (pair a) (sub (concat G) lo hi).
Proof.
  intros HL Ea Eg lo hi H1 H2 H3.
  assert (Es : sub (expand P G) (off G i) (off G (S i)) = map (pair a) (sub (concat G) (off G i) (off G (S i)))).
  { rewrite <- expand_sub by auto. rewrite sub_group with (g := g) by auto. rewrite (sub_one P i a Ea), (sub_one G i g Eg). cbn. apply app_nil_r. }
  assert (W : forall {Y} (l : list Y), sub l lo hi = sub (sub l (off G i) (off G (S i))) (lo - off G i) (hi - off G i)).
  { intros Y l. unfold sub. rewrite skipn_firstn_comm, firstn_firstn, skipn_skipn. f_equal; [lia|]. f_equal. lia. }
  rewrite (W _ (expand P G)), Es, <- map_sub, <- W. reflexivity.
Qed.
(** *** Paths *)
Section Paths.
Context {A : Type}.
Variables P0 P1 : list A.
Hypothesis HL0 : length P0 = length G0.
Hypothesis HL1 : length P1 = length G1.
Local Notation Q0 := (expand P0 G0).
Local Notation Q1 := (expand P1 G1).
Hypothesis HN0 : Forall (fun g => g <> []) G0.
Hypothesis HN1 : Forall (fun g => g <> []) G1.
Hypothesis HS0 : Forall strictly_sorted G0.
Hypothesis HS1 : Forall strictly_sorted G1.

Lemma read_paths i j a g0 g1 s p p' q q' : nth_error P0 i = Some a -> nth_error P1 j = Some a -> nth_error G0 i = Some g0 -> nth_error G1 j = Some g1 ->
  zips (same A0 A1) p p' q q' s -> off G0 i <= p -> p' <= off G0 (S i) -> off G1 j <= q -> q' <= off G1 (S j) ->
  zips (same Q0 Q1) p p' q q' s /\ read Q0 Q1 s = map (pair a) (read A0 A1 s).
Proof.
  intros Ea0 Ea1 Eg0 Eg1 H. induction H as [p q|p m p' q q' s L H IH|p p' q m q' s L H IH|p p' q q' s E H IH]; intros B1 B2 B3 B4.
  - split; [constructor|reflexivity].
  - pose proof (zips_le _ _ _ _ _ _ H) as [La Lb]. destruct IH as [I1 I2]; auto; try lia. split; [constructor; auto|]. cbn [read flat_map read_one]. rewrite map_app.
    rewrite (path_at P0 G0 i a g0) by (auto; lia). f_equal. exact I2.
  - pose proof (zips_le _ _ _ _ _ _ H) as [La Lb]. destruct IH as [I1 I2]; auto; try lia. split; [constructor; auto|]. cbn [read flat_map read_one]. rewrite map_app.
    rewrite (path_at P1 G1 j a g1) by (auto; lia). f_equal. exact I2.
  - pose proof (zips_le _ _ _ _ _ _ H) as [La Lb]. destruct IH as [I1 I2]; auto; try lia. destruct E as (x & E0 & E1).
    assert (S0 : sub Q0 p (S p) = [(a, x)]) by (rewrite (path_at P0 G0 i a g0) by (auto; lia); rewrite (sub_one A0 p x E0); reflexivity).
    assert (S1 : sub Q1 q (S q) = [(a, x)]) by (rewrite (path_at P1 G1 j a g1) by (auto; lia); rewrite (sub_one A1 q x E1); reflexivity).
    assert (N : forall {Y} (l : list Y) n (y : Y), sub l n (S n) = [y] -> nth_error l n = Some y).
    { clear. intros Y l n y Hs. unfold sub in Hs. replace (S n - n) with 1 in Hs by lia. destruct (nth_error l n) as [w|] eqn:Ew.
      - rewrite (skipn_get l n w Ew) in Hs. cbn in Hs. inversion Hs. reflexivity.
      - apply nth_error_None in Ew. rewrite skipn_all2 in Hs by lia. discriminate. }
    split; [constructor; auto; exists (a, x); split; apply N; auto|]. cbn [read flat_map read_one]. rewrite map_app. rewrite S0, (sub_one A0 p x E0). cbn [map app]. f_equal. exact I2.
Qed.
Lemma nth_groups {Y Z} (P : list Y) (G : list Z) i : length P = length G -> i < length G -> (exists a, nth_error P i = Some a) /\ exists g, nth_error G i = Some g.
Proof. intros H L. split; apply get_some; lia. Qed.

Lemma survey_ok S : forall p p' q q', zips (same P0 P1) p p' q q' S -> p' <= length G0 -> q' <= length G1 ->
  exists S' gs, survey l0 l1 S = Some S' /\ full S S' gs /\ zips (same Q0 Q1) (off G0 p) (off G0 p') (off G1 q) (off G1 q') S'.
Proof.
  intros p p' q q' H. induction H as [p q|p m p' q q' s L H IH|p p' q m q' s L H IH|p p' q q' s E H IH]; intros B0 B1; cbn [survey].
  - exists [], []. split; auto. split; constructor.
  - pose proof (zips_le _ _ _ _ _ _ H) as [La Lb]. destruct IH as (S' & gs & E1 & E2 & E3); auto. cbn [survey_one]. unfold survey_range. rewrite child_range_ok by lia.
    destruct m as [|m]; [lia|]. rewrite child_range_ok by lia. rewrite E1. exists (This (off G0 p) (off G0 (S m)) :: S'), (sub G0 p (S m) ++ gs). split; auto. split; [constructor; auto; lia|].
    constructor; auto. apply off_lt; auto; lia.
  - pose proof (zips_le _ _ _ _ _ _ H) as [La Lb]. destruct IH as (S' & gs & E1 & E2 & E3); auto. cbn [survey_one]. unfold survey_range. rewrite child_range_ok by lia.
    destruct m as [|m]; [lia|]. rewrite child_range_ok by lia. rewrite E1. exists (That (off G1 q) (off G1 (S m)) :: S'), (sub G1 q (S m) ++ gs). split; auto. split; [constructor; auto; lia|].
    constructor; auto. apply off_lt; auto; lia.
  - pose proof (zips_le _ _ _ _ _ _ H) as [La Lb]. destruct IH as (S' & gs & E1 & E2 & E3); auto. cbn [survey_one]. rewrite !child_range_ok by lia.
    destruct E as (a & Ea0 & Ea1). destruct (get_some G0 p) as (g0 & Eg0); [lia|]. destruct (get_some G1 q) as (g1 & Eg1); [lia|]. unfold get in *.
    assert (Sg0 : strictly_sorted g0) by (rewrite Forall_forall in HS0; apply HS0; eapply nth_error_In; eauto).
    assert (Sg1 : strictly_sorted g1) by (rewrite Forall_forall in HS1; apply HS1; eapply nth_error_In; eauto).
    destruct (survey_both_ok (off G0 (S p) + off G1 (S q)) (off G0 p) (off G0 (S p)) (off G1 q) (off G1 (S q))) as (s0 & Es & Hz & Hs);
      try (apply off_mono; lia); try apply off_le; try lia; [rewrite (sub_group G0 p g0 Eg0); auto|rewrite (sub_group G1 q g1 Eg1); auto|].
    rewrite Es, E1. exists (s0 ++ S'), (read A0 A1 s0 :: gs). split; auto. split; [constructor; auto; lia|]. apply zips_app. exists (off G0 (S p)), (off G1 (S q)). split; auto.
    apply (read_paths p q a g0 g1 s0) in Hz; auto. tauto.
Qed.
Lemma refines_expand S S' gs : refines S S' gs -> forall p p' q q', zips (same P0 P1) p p' q q' S -> p' <= length G0 -> q' <= length G1 ->
  expand (read P0 P1 S) gs = read Q0 Q1 S' /\ length (read P0 P1 S) = length gs.
Proof.
  induction 1 as [|l u S S' gs L B H IH|l u S S' gs L B H IH|i j s S S' gs Bi Bj Hz Hs H IH|i j s p0 q0 Bi Bj Hz Hp Hq Hn Hs]; intros p p' q q' HZ B0 B1.
  - auto.
  - inversion HZ; subst. match goal with HZ : zips _ _ _ _ _ S |- _ => destruct (IH _ _ _ _ HZ) as [I1 I2]; auto end. cbn [read flat_map read_one]. split.
    + rewrite expand_app by (rewrite !sub_length; lia). rewrite expand_sub by (auto; lia). f_equal. exact I1.
    + rewrite !app_length, !sub_length by lia. unfold read in I2. rewrite I2. lia.
  - inversion HZ; subst. match goal with HZ : zips _ _ _ _ _ S |- _ => destruct (IH _ _ _ _ HZ) as [I1 I2]; auto end. cbn [read flat_map read_one]. split.
    + rewrite expand_app by (rewrite !sub_length; lia). rewrite expand_sub by (auto; lia). f_equal. exact I1.
    + rewrite !app_length, !sub_length by lia. unfold read in I2. rewrite I2. lia.
  - inversion HZ; subst. match goal with HZ : zips _ _ _ _ _ S |- _ => destruct (IH _ _ _ _ HZ) as [I1 I2]; auto end.
    match goal with HE : same P0 P1 i j |- _ => destruct HE as (a & Ea0 & Ea1) end.
    destruct (get_some G0 i) as (g0 & Eg0); [lia|]. destruct (get_some G1 j) as (g1 & Eg1); [lia|]. unfold get in *.
    apply (read_paths i j a g0 g1) in Hz as [_ Hz]; auto. cbn [read flat_map read_one]. rewrite (sub_one P0 i a Ea0). cbn [app expand]. fold (read P0 P1 S). rewrite I1. split.
    + rewrite <- Hz. symmetry. apply flat_map_app.
    + cbn [length]. rewrite I2. reflexivity.
  - inversion HZ; subst. match goal with HE : same P0 P1 i j |- _ => destruct HE as (a & Ea0 & Ea1) end.
    destruct (get_some G0 i) as (g0 & Eg0); [lia|]. destruct (get_some G1 j) as (g1 & Eg1); [lia|]. unfold get in *.
    apply (read_paths i j a g0 g1) in Hz as [_ Hz]; auto. cbn [read flat_map read_one]. rewrite (sub_one P0 i a Ea0). cbn [app expand]. split; [|reflexivity].
    rewrite app_nil_r. symmetry. exact Hz.
Qed.
End Paths.

Lemma read_nonempty p p' q q' s : zips (same A0 A1) p p' q q' s -> p' <= length A0 -> q' <= length A1 -> s <> [] -> read A0 A1 s <> [].
Proof.
  intros H B0 B1 N E. assert (Hl : length (read A0 A1 s) = 0) by (rewrite E; reflexivity). destruct H as [|p m p' q q' s L H|p p' q m q' s L H|p p' q q' s E2 H]; [congruence| | |];
    cbn [read flat_map read_one] in Hl; rewrite app_length, sub_length in Hl; apply zips_le in H; lia.
Qed.
Lemma refines_groups S S' gs : Forall (fun g => g <> []) G0 -> Forall (fun g => g <> []) G1 -> Forall strictly_sorted G0 -> Forall strictly_sorted G1 ->
  refines S S' gs -> Forall (fun g => g <> []) gs /\ Forall strictly_sorted gs.
Proof.
  intros N0 N1 S0 S1 H. assert (Fs : forall (Q : list X -> Prop) G l u, Forall Q G -> Forall Q (sub G l u)).
  { intros Q G l u HF. rewrite Forall_forall in *. intros x Hx. apply HF. eapply in_sub_in; eauto. }
  induction H as [|l u S S' gs L B H IH|l u S S' gs L B H IH|i j s S S' gs Bi Bj Hz Hs H IH|i j s p0 q0 Bi Bj Hz Hp Hq Hn Hs].
  - auto.
  - destruct IH. split; apply Forall_app; auto.
  - destruct IH. split; apply Forall_app; auto.
  - destruct IH. split; constructor; auto. eapply read_nonempty; eauto; try apply off_le. intros ->. apply zips_le in Hz as Hz'. inversion Hz as [a b Ea Eb| | |].
    assert (off G0 i < off G0 (Datatypes.S i)) by (apply off_lt; auto). lia.
  - split; constructor; auto. eapply read_nonempty; eauto; pose proof (off_le G0 (Datatypes.S i)); pose proof (off_le G1 (Datatypes.S j)); lia.
Qed.
End Layer.
