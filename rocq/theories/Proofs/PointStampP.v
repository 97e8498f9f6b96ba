(** PointStamps, read coordinate by coordinate with missing coordinates at the minimum. *)
From Verif Require Import Model.PointStampM Model.AltNeuM Spec.PointStampSpec Spec.LatticeLaws.
From Coq Require Import Eqdep_dec.
From Verif Require Import Base.Order Base.Arrays.

Section PointStamp.
Context {T : Type} {TT : Time T}.
Implicit Types a b v : list T.

Lemma coord_nil i : coord (T:=T) [] i = tmin.
Proof. destruct i; reflexivity. Qed.

Lemma coord_beyond v i : length v <= i -> coord v i = tmin.
Proof. intros. apply nth_overflow; auto. Qed.

Lemma coord_app1 v w i : i < length v -> coord (v ++ w) i = coord v i.
Proof. intros. apply app_nth1; auto. Qed.
Lemma coord_app2 v w i : length v <= i -> coord (v ++ w) i = coord w (i - length v).
Proof. intros. apply app_nth2; auto. Qed.

Lemma coord_skipn n v i : coord (skipn n v) i = coord v (n + i).
Proof.
  revert v i. induction n as [|n IH]; intros v i; [reflexivity|]. destruct v as [|x v]; [rewrite !coord_nil; reflexivity|]. apply IH.
Qed.
Lemma coord_firstn n v i : coord (firstn n v) i = if i <? n then coord v i else tmin.
Proof.
  destruct (Nat.ltb_spec i n).
  - revert n H v. induction i as [|i IH]; intros [|n] H v; try lia; destruct v as [|x v]; try reflexivity. apply (IH n); lia.
  - apply coord_beyond. pose proof (firstn_le_length n v). rewrite firstn_length. lia.
Qed.

Lemma coord_removelast v i : rev v <> [] -> hd tmin (rev v) = tmin -> coord (removelast v) i = coord v i.
Proof.
  intros Hn. destruct (rev v) as [|x r] eqn:E; [congruence|]. simpl. intros ->.
  assert (v = rev r ++ [tmin]) as -> by (rewrite <- (rev_involutive v), E; reflexivity).
  rewrite removelast_last. destruct (Nat.lt_ge_cases i (length (rev r))).
  - rewrite coord_app1; auto.
  - rewrite coord_beyond by auto. rewrite coord_app2 by auto. destruct (i - length (rev r)) as [|[|?]]; reflexivity.
Qed.

Lemma pop_minima_coord fuel v i : coord (pop_minima fuel v) i = coord v i.
Proof.
  revert v. induction fuel as [|fuel IH]; intros v; [reflexivity|]. simpl. destruct (rev v) as [|x r] eqn:E; [reflexivity|].
  destruct (eqb_spec x tmin) as [->|]; [|reflexivity]. rewrite IH. apply coord_removelast; rewrite E; [discriminate|reflexivity].
Qed.

Lemma pop_minima_minimal fuel v : length v <= fuel -> minimal (pop_minima fuel v).
Proof.
  revert v. induction fuel as [|fuel IH]; intros v Hl.
  - destruct v; [|simpl in Hl; lia]. intros r x E. destruct r; discriminate.
  - simpl. destruct (rev v) as [|x r] eqn:E.
    + intros r y Ev. rewrite Ev, rev_app_distr in E. discriminate.
    + assert (Ev : v = rev r ++ [x]) by (rewrite <- (rev_involutive v), E; reflexivity). destruct (eqb_spec x tmin) as [->|Hx].
      * apply IH. rewrite Ev, removelast_last. rewrite Ev, app_length in Hl. simpl in Hl. lia.
      * intros r' y Ey. rewrite Ev in Ey. apply app_inj_tail in Ey as (_ & <-). exact Hx.
Qed.

Lemma ps_new_coord v i : coord (ps_new v) i = coord v i.
Proof. apply pop_minima_coord. Qed.
Lemma ps_new_minimal v : minimal (ps_new v).
Proof. apply pop_minima_minimal; auto. Qed.

Lemma minimal_tl x v : minimal (x :: v) -> minimal v.
Proof. intros H r y E. apply (H (x :: r) y). simpl. f_equal. exact E. Qed.

Lemma minimal_all_min v : minimal v -> (forall i, coord v i = tmin) -> v = [].
Proof.
  intros Hm H. destruct v as [|x v] using rev_ind; [reflexivity|]. exfalso. apply (Hm v x eq_refl).
  specialize (H (length v)). rewrite coord_app2, Nat.sub_diag in H by auto. exact H.
Qed.

Lemma ps_ext a b : minimal a -> minimal b -> (forall i, coord a i = coord b i) -> a = b.
Proof.
  revert b. induction a as [|x a IH]; intros b Ha Hb H.
  - symmetry. apply minimal_all_min; auto. intros i. rewrite <- H. apply coord_nil.
  - destruct b as [|y b].
    + apply minimal_all_min; auto. intros i. rewrite H. apply coord_nil.
    + f_equal; [apply (H 0)|]. apply IH; eauto using minimal_tl. intros i. apply (H (S i)).
Qed.

Lemma all_padded_spec (f : T -> T -> bool) a b :
  all_padded f a b = true <-> forall i, i < length a -> f (coord a i) (coord b i) = true.
Proof.
  revert b. induction a as [|x a IH]; intros b; simpl; [split; auto; intros; lia|].
  rewrite andb_true_iff, IH. split.
  - intros (H1 & H2) [|i] Hi; [destruct b; exact H1|]. specialize (H2 i ltac:(lia)). destruct b; simpl in *; [rewrite coord_nil in *|]; auto.
  - intros H. split; [specialize (H 0 ltac:(lia)); destruct b; exact H|]. intros i Hi. specialize (H (S i) ltac:(lia)).
    destruct b; simpl in *; [rewrite coord_nil in *|]; auto.
Qed.

Lemma ps_le_spec a b : ps_le a b = true <-> forall i, tle (coord a i) (coord b i) = true.
Proof.
  unfold ps_le. rewrite all_padded_spec. split; intros H i; auto.
  destruct (Nat.lt_ge_cases i (length a)); auto. rewrite coord_beyond by auto. apply tmin_le.
Qed.

Lemma zip_with_length {A B C} (f : A -> B -> C) x y : length (zip_with f x y) = Nat.min (length x) (length y).
Proof. revert y. induction x; intros []; simpl; auto. Qed.

Lemma zip_with_coord (f : T -> T -> T) a b i : i < Nat.min (length a) (length b) -> coord (zip_with f a b) i = f (coord a i) (coord b i).
Proof.
  revert b i. induction a as [|x a IH]; intros [|y b] [|i] H; simpl in *; try lia; auto. exact (IH b i ltac:(lia)).
Qed.

Lemma join_tmin_l (x : T) : join tmin x = x.
Proof. apply join_eq_r, tmin_le. Qed.
Lemma join_tmin_r (x : T) : join x tmin = x.
Proof. apply join_eq_l, tmin_le. Qed.
Lemma meet_tmin_l (x : T) : meet tmin x = tmin.
Proof. apply meet_eq_l, tmin_le. Qed.
Lemma meet_tmin_r (x : T) : meet x tmin = tmin.
Proof. rewrite meet_comm. apply meet_tmin_l. Qed.

Lemma join_raw_coord a b i :
  coord (zip_with join a b ++ skipn (Nat.min (length a) (length b)) a ++ skipn (Nat.min (length a) (length b)) b) i = join (coord a i) (coord b i).
Proof.
  set (n := Nat.min (length a) (length b)). assert (L : length (zip_with join a b) = n) by apply zip_with_length.
  destruct (Nat.lt_ge_cases i n) as [H|H].
  - rewrite coord_app1 by lia. apply zip_with_coord; auto.
  - rewrite coord_app2, L by lia. destruct (Nat.le_ge_cases (length a) (length b)) as [H'|H'].
    + assert (n = length a) as E by lia. rewrite (skipn_all2 a) by lia. simpl. rewrite coord_skipn.
      rewrite (coord_beyond a) by lia. rewrite join_tmin_l. f_equal. lia.
    + assert (n = length b) as E by lia. rewrite (skipn_all2 b), app_nil_r, coord_skipn by lia.
      rewrite (coord_beyond b) by lia. rewrite join_tmin_r. f_equal. lia.
Qed.

Lemma ps_join_coord a b i : coord (ps_join a b) i = join (coord a i) (coord b i).
Proof. unfold ps_join. cbn zeta. rewrite ps_new_coord. apply join_raw_coord. Qed.

Lemma ps_meet_coord a b i : coord (ps_meet a b) i = meet (coord a i) (coord b i).
Proof.
  unfold ps_meet. rewrite ps_new_coord. destruct (Nat.lt_ge_cases i (Nat.min (length a) (length b))) as [H|H].
  - apply zip_with_coord; auto.
  - rewrite coord_beyond by (rewrite zip_with_length; auto). destruct (Nat.le_ge_cases (length a) (length b)) as [H'|H'].
    + rewrite (coord_beyond a) by lia. rewrite meet_tmin_l; auto.
    + rewrite (coord_beyond b) by lia. rewrite meet_tmin_r; auto.
Qed.

Lemma join_assign_raw a b : ps_join_assign a b =
  zip_with join a b ++ skipn (Nat.min (length a) (length b)) a ++ skipn (Nat.min (length a) (length b)) b.
Proof.
  unfold ps_join_assign. cbn zeta. destruct (Nat.ltb_spec (length a) (length b)).
  - rewrite Nat.min_l by lia. rewrite <- app_assoc. auto.
  - rewrite Nat.min_r by lia. rewrite skipn_all, app_nil_r. auto.
Qed.

Lemma join_not_min (x y : T) : join x y = tmin -> x = tmin /\ y = tmin.
Proof.
  intros H. split; apply tle_antisym; auto using tmin_le; rewrite <- H; [apply join_ub_l|apply join_ub_r].
Qed.

Lemma minimal_last v : v <> [] -> (minimal v <-> coord v (length v - 1) <> tmin).
Proof.
  intros Hn. destruct v as [|x v _] using rev_ind; [congruence|].
  assert (E : coord (v ++ [x]) (length (v ++ [x]) - 1) = x).
  { rewrite app_length. simpl. replace (length v + 1 - 1) with (length v) by lia. rewrite coord_app2, Nat.sub_diag by auto. reflexivity. }
  rewrite E. split; [intros H; exact (H v x eq_refl)|]. intros H r y Ey. apply app_inj_tail in Ey as (_ & <-). auto.
Qed.

Lemma join_raw_minimal a b : minimal a -> minimal b -> minimal (ps_join_assign a b).
Proof.
  intros Ha Hb. destruct (ps_join_assign a b) as [|z v] eqn:E; [intros r x F; destruct r; discriminate|]. rewrite <- E.
  assert (L : length (ps_join_assign a b) = Nat.max (length a) (length b)).
  { rewrite join_assign_raw, !app_length, zip_with_length, !skipn_length. lia. }
  apply minimal_last; [rewrite E; discriminate|]. intros F. rewrite join_assign_raw, join_raw_coord in F.
  apply join_not_min in F as (F1 & F2). rewrite <- join_assign_raw, L in F1, F2.
  assert (Hp : 0 < Nat.max (length a) (length b)) by (rewrite <- L, E; simpl; lia).
  destruct (Nat.le_ge_cases (length a) (length b)).
  - rewrite Nat.max_r in * by lia. assert (b <> []) by (destruct b; simpl in *; [lia|discriminate]). apply (minimal_last b) in Hb; auto.
  - rewrite Nat.max_l in * by lia. assert (a <> []) by (destruct a; simpl in *; [lia|discriminate]). apply (minimal_last a) in Ha; auto.
Qed.

Lemma ps_join_assign_join a b : minimal a -> minimal b -> ps_join_assign a b = ps_join a b.
Proof.
  intros Ha Hb. apply ps_ext; [apply join_raw_minimal; auto|apply ps_new_minimal|].
  intros i. rewrite ps_join_coord, join_assign_raw. apply join_raw_coord.
Qed.

Lemma zip_with_firstn {A B C} (f : A -> B -> C) x y : zip_with f (firstn (Nat.min (length x) (length y)) x) y = zip_with f x y.
Proof. revert y. induction x; intros []; simpl; auto. f_equal. auto. Qed.

Lemma ps_meet_assign_meet a b : ps_meet_assign a b = ps_meet a b.
Proof. unfold ps_meet_assign, ps_meet, ps_new. cbn zeta. rewrite zip_with_firstn. auto. Qed.

(** *** The total order of vectors extends the partial order *)
Lemma ps_le_cmp a b : minimal a -> minimal b -> ps_le a b = true -> le a b.
Proof.
  revert b. induction a as [|x a IH]; intros b Ha Hb H; [unfold le; simpl; destruct b; discriminate|].
  unfold ps_le in *. destruct b as [|y b].
  - exfalso. simpl in H. assert (E : x :: a = []); [|discriminate]. apply minimal_all_min; auto. intros i.
    apply tle_antisym; auto using tmin_le.  assert (HH : ps_le (x :: a) [] = true) by exact H. rewrite ps_le_spec in HH. specialize (HH i). rewrite coord_nil in HH. exact HH.
  - simpl in H. apply andb_true_iff in H as (H1 & H2). unfold le. simpl. destruct (cmp_spec x y) as [E|E|E]; try discriminate.
    + apply (IH b); eauto using minimal_tl.
    + apply tle_le in H1. exfalso. apply not_le_lt in E. auto.
Qed.

(** ** PointStamps as a type *)
Lemma trim_eq v : minimal v <-> eqb (ps_new v) v = true.
Proof.
  rewrite eqb_eq. split.
  - intros H. apply ps_ext; auto using ps_new_minimal, ps_new_coord.
  - intros <-. apply ps_new_minimal.
Qed.
End PointStamp.

Record PointStamp (T : Type) {TT : Time T} := { ps_vec : list T; ps_minimal : eqb (ps_new ps_vec) ps_vec = true }.
Arguments ps_vec {T TT}. Arguments ps_minimal {T TT}.

Section Instance.
Context {T : Type} {TT : Time T}.
Implicit Types a b : PointStamp T.

Lemma ps_vec_inj a b : ps_vec a = ps_vec b -> a = b.
Proof.
  destruct a as [a Ha], b as [b Hb]; simpl. intros ->. f_equal. apply UIP_dec. apply Bool.bool_dec.
Qed.
Lemma ps_min a : minimal (ps_vec a).
Proof. apply trim_eq, ps_minimal. Qed.

Definition mk_ps (v : list T) : PointStamp T := {| ps_vec := ps_new v; ps_minimal := proj1 (trim_eq _) (ps_new_minimal v) |}.

#[global] Program Instance Ord_pointstamp : Ord (PointStamp T) := {| cmp := fun a b => cmp (ps_vec a) (ps_vec b) |}.
Next Obligation. change (cmp (ps_vec x) (ps_vec y) = Eq <-> x = y). rewrite cmp_eq. split; [apply ps_vec_inj|intros ->; auto]. Qed.
Next Obligation. change (cmp (ps_vec y) (ps_vec x) = CompOpp (cmp (ps_vec x) (ps_vec y))). apply cmp_antisym. Qed.
Next Obligation. change (cmp (ps_vec x) (ps_vec z) = Lt). eapply cmp_trans; [exact H|exact H0]. Qed.

#[global] Program Instance Lattice_pointstamp : Lattice (PointStamp T) := {|
  tle := fun a b => ps_le (ps_vec a) (ps_vec b);
  join := fun a b => {| ps_vec := ps_join (ps_vec a) (ps_vec b) |};
  meet := fun a b => {| ps_vec := ps_meet (ps_vec a) (ps_vec b) |} |}.
Next Obligation. apply trim_eq, ps_new_minimal. Qed.
Next Obligation. apply trim_eq, ps_new_minimal. Qed.
Next Obligation. apply ps_le_spec. intros i; apply tle_refl. Qed.
Next Obligation. rewrite ps_le_spec in *. intros i; eapply tle_trans; eauto. Qed.
Next Obligation.
  apply ps_vec_inj, ps_ext; auto using ps_min. intros i. rewrite ps_le_spec in *. apply tle_antisym; auto.
Qed.
Next Obligation. apply ps_le_spec. intros i. rewrite ps_join_coord. apply join_ub_l. Qed.
Next Obligation. apply ps_le_spec. intros i. rewrite ps_join_coord. apply join_ub_r. Qed.
Next Obligation. rewrite ps_le_spec in *. intros i. rewrite ps_join_coord. apply join_lub; auto. Qed.
Next Obligation. apply ps_le_spec. intros i. rewrite ps_meet_coord. apply meet_lb_l. Qed.
Next Obligation. apply ps_le_spec. intros i. rewrite ps_meet_coord. apply meet_lb_r. Qed.
Next Obligation. rewrite ps_le_spec in *. intros i. rewrite ps_meet_coord. apply meet_glb; auto. Qed.

#[global] Program Instance Time_pointstamp : Time (PointStamp T) := {|
  time_ord := Ord_pointstamp; time_lattice := Lattice_pointstamp; tmin := {| ps_vec := ps_minimum |} |}.
Next Obligation. apply (ps_le_cmp (ps_vec x) (ps_vec y)); auto using ps_min. Qed.
End Instance.

(** ** AltNeu *)
Lemma an_is_lattice {T} (eq le : T -> T -> bool) (jn mt : T -> T -> T) :
  (forall x y, eq x y = true <-> x = y) -> is_lattice le jn mt ->
  is_lattice (an_le eq le) (an_join eq jn) (an_meet eq mt).
Proof.
  intros He [Hr Ht Ha Hj Hjl Hm Hmg].
  assert (Hjx : forall x y, le x y = true -> jn x y = y).
  { intros x y H. apply Ha; [apply Hjl; auto|apply Hj]. }
  assert (Hjy : forall x y, le y x = true -> jn x y = x).
  { intros x y H. apply Ha; [apply Hjl; auto|apply Hj]. }
  assert (Hmx : forall x y, le x y = true -> mt x y = x).
  { intros x y H. apply Ha; [apply Hm|apply Hmg; auto]. }
  assert (Hmy : forall x y, le y x = true -> mt x y = y).
  { intros x y H. apply Ha; [apply Hm|apply Hmg; auto]. }
  assert (HL : forall x n y m, an_le eq le (x, n) (y, m) = true <-> le x y = true /\ (x = y -> implb n m = true)).
  { intros x n y m. unfold an_le; simpl. destruct (eq x y) eqn:E.
    - apply He in E. subst. split; [auto|intros (_ & H); auto].
    - assert (x <> y) by (intros F; apply He in F; congruence). tauto. }
  assert (HJ : forall x n y m, an_join eq jn (x, n) (y, m) =
     (jn x y, (eq (jn x y) x && n) || (eq (jn x y) y && m))).
  { intros. unfold an_join; simpl. destruct (eq (jn x y) x), (eq (jn x y) y), n, m; reflexivity. }
  assert (HM : forall x n y m, an_meet eq mt (x, n) (y, m) =
     (mt x y, (negb (eq (mt x y) x) || n) && (negb (eq (mt x y) y) || m))).
  { intros. unfold an_meet; simpl. destruct (eq (mt x y) x), (eq (mt x y) y), n, m; reflexivity. }
  assert (Hee : forall x, eq x x = true) by (intros x; apply He; auto).
  constructor.
  - intros [x n]. apply HL. split; auto. destruct n; auto.
  - intros [x n] [y m] [z k]. rewrite !HL. intros (H1 & H2) (H3 & H4). split; [eauto|]. intros ->.
    assert (z = y) by auto. subst. specialize (H2 eq_refl). specialize (H4 eq_refl). destruct n, m, k; auto.
  - intros [x n] [y m]. rewrite !HL. intros (H1 & H2) (H3 & H4). assert (x = y) by auto. subst. specialize (H2 eq_refl). specialize (H4 eq_refl).
    f_equal. destruct n, m; auto; discriminate.
  - intros [x n] [y m]. rewrite HJ, !HL. destruct (Hj x y). repeat split; auto; intros E; rewrite <- E, Hee; destruct n, m; simpl; auto using orb_true_r.
  - intros [x n] [y m] [z k]. rewrite HJ, !HL. intros (H1 & H2) (H3 & H4). split; auto. intros <-.
    destruct (eq (jn x y) x) eqn:E1; destruct (eq (jn x y) y) eqn:E2; simpl; auto.
    + apply He in E1, E2. specialize (H2 (eq_sym E1)). specialize (H4 (eq_sym E2)). destruct n, m, k; auto.
    + apply He in E1. specialize (H2 (eq_sym E1)). destruct n, k; auto.
    + apply He in E2. specialize (H4 (eq_sym E2)). destruct m, k; auto.
  - intros [x n] [y m]. rewrite HM, !HL. destruct (Hm x y). repeat split; auto; intros E; rewrite E, Hee; simpl; destruct n, m; simpl; auto using andb_false_r;
      destruct (eq _ _); auto.
  - intros [x n] [y m] [z k]. rewrite HM, !HL. intros (H1 & H2) (H3 & H4). split; auto. intros ->.
    destruct (eq (mt x y) x) eqn:E1; destruct (eq (mt x y) y) eqn:E2; simpl; auto.
    + apply He in E1, E2. specialize (H2 E1). specialize (H4 E2). destruct n, m, k; auto.
    + apply He in E1. specialize (H2 E1). destruct n, k; auto.
    + apply He in E2. specialize (H4 E2). destruct m, k; auto.
    + destruct k; auto.
Qed.
