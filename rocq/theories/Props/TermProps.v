(** C63: the scalar terms of interactive programs compute what their rules say, and the reducers keep what
    their names say. *)
From Verif Require Import Spec.TermSpec Proofs.DdirMeansP Proofs.TermP Proofs.ReducerP.
From Verif Require Import Base.Collections Base.Order Proofs.DdirExP.
Local Open Scope Z_scope.

(** A term has the value that the rules give it, and panics if they give it none. *)
Theorem c63_eval t env v : eval t env = Some v <-> computes env t v.
Proof. split; [apply eval_computes|apply computes_eval]. Qed.
Print Assumptions c63_eval.
Corollary c63_panic t env : eval t env = None <-> forall v, ~ computes env t v.
Proof.
  split; [intros E v H; apply c63_eval in H; congruence|]. intros H. destruct (eval t env) as [v|] eqn:E; auto. apply c63_eval in E. destruct (H v E).
Qed.
Print Assumptions c63_panic.
(** A draw is never negative, fits an [i64], and is below its bound. *)
Theorem c63_hash env bound args v : computes env (THash (bound :: args)) v ->
  exists n, v = VInt n /\ 0 <= n < 2 ^ 63 /\ forall b, computes env bound (VInt b) -> 0 < b -> n < b.
Proof.
  assert (HB : forall x, 0 <= hash_u64 x < 2 ^ 64).
  { intros x. unfold hash_u64. set (w := as_u64 _).
    assert (B : 0 <= w < 2 ^ 64) by (unfold w, as_u64; apply Z.mod_pos_bound; reflexivity). clearbody w. split.
    - apply Z.lxor_nonneg. split; intros _; [apply Z.shiftr_nonneg|]; lia.
    - destruct (Z.eq_dec (Z.lxor w (Z.shiftr w 31)) 0) as [->|N]; [reflexivity|]. assert (P : 0 <= Z.lxor w (Z.shiftr w 31)) by (apply Z.lxor_nonneg; split; intros _; [apply Z.shiftr_nonneg|]; lia).
      apply Z.log2_lt_pow2; [lia|]. eapply Z.le_lt_trans; [apply Z.log2_lxor; [lia|apply Z.shiftr_nonneg; lia]|].
      assert (L1 : Z.log2 w < 64) by (destruct (Z.eq_dec w 0) as [->|]; [reflexivity|apply Z.log2_lt_pow2; lia]).
      assert (L2 : Z.log2 (Z.shiftr w 31) <= Z.log2 w) by (apply Z.log2_le_mono; rewrite Z.shiftr_div_pow2 by lia; apply Z.div_le_upper_bound; lia). lia. }
  assert (D : forall env args a h, draws env args a h -> 0 <= a < 2 ^ 64 -> 0 <= h < 2 ^ 64) by (induction 1; auto).
  intros H. inversion H as [| | | | | | | | | | | | | | | | | | | | | | | |? ? ? b h Hb Hd]; subst. apply D in Hd; [|lia]. eexists. split; [reflexivity|].
  assert (H2 : 0 <= h / 2 < 2 ^ 63) by (split; [apply Z.div_pos; lia|apply Z.div_lt_upper_bound; lia]).
  assert (U : forall b', computes env bound (VInt b') -> b' = b) by (intros b' Hb'; apply c63_eval in Hb, Hb'; congruence).
  destruct (Z.ltb_spec 0 b) as [Pb|Nb].
  - pose proof (Z.mod_pos_bound (h / 2) b Pb). pose proof (Z.mod_le (h / 2) b). split; [lia|]. intros b' Hb' _. rewrite (U _ Hb'). lia.
  - split; [lia|]. intros b' Hb' P. rewrite (U _ Hb') in P. lia.
Qed.
Print Assumptions c63_hash.

(** At every time the reducer [min] has of each key the least of the values that are there. *)
Theorem c63_min c out k v t : reduced_to RMin c out -> just_if (least c k v t) (there out k v t).
Proof. intros H. destruct (H k t) as (vals & C & W & E). unfold there at 1. rewrite E, <- outs_weight. apply min_out; auto. Qed.
Print Assumptions c63_min.
(** [distinct] has the unit of each key of which anything is there. *)
Theorem c63_distinct c out k v t : reduced_to RDistinct c out -> just_if (v = VTuple [] /\ exists w, there c k w t <> 0) (there out k v t).
Proof. intros H. destruct (H k t) as (vals & C & W & E). unfold there at 2. rewrite E, <- outs_weight. apply distinct_out; auto. Qed.
Print Assumptions c63_distinct.
(** [count] has how often each key is there, if it is. *)
Theorem c63_count c out k v t : reduced_to RCount c out -> just_if (0 < key_there c k t /\ v = VTuple [VInt (key_there c k t)]) (there out k v t).
Proof. intros H. destruct (H k t) as (vals & C & W & E). unfold there. rewrite E, <- outs_weight. apply count_out; auto. Qed.
Print Assumptions c63_count.
(** [collect] has, of each key of which anything is there, the list of its values in order, each as often as
    it is there. *)
Theorem c63_collect c out k v t : reduced_to RCollect c out ->
  just_if ((exists w, there c k w t <> 0) /\ exists l, v = VList l /\ listed c k t l) (there out k v t).
Proof. intros H. destruct (H k t) as (vals & C & W & E). unfold there at 2. rewrite E, <- outs_weight. apply collect_out; auto. Qed.
Print Assumptions c63_collect.

(** What was collected and is taken apart again is what it was, where nothing was there less than never. *)
Theorem c63_collect_flatten c out level k v t : reduced_to RCollect c out ->
  there (linear_of [LFlatMap (TVar 1); LProject {| p_key := TVar 0; p_val := TProj (TVar 1) 1 |}] level out) k v t = Z.max 0 (there c k v t).
Proof.
  intros H. destruct (H k t) as (vals & C & W & E). rewrite (split_acc _ (fun xs => xs)) by (intros; apply flatten_one).
  rewrite (key_sum t out k (outs RCollect vals)); [|intros x; rewrite outs_weight; symmetry; apply E|intros d N; apply (proj2 (eqb_neq _ _)) in N; rewrite N; reflexivity].
  cbn [fst]. rewrite eqb_refl. pose proof (collected_listed c k t vals C W) as (_ & L). specialize (L v). unfold collected in L. rewrite <- L. destruct vals as [|x l]; [reflexivity|]. cbn [outs reduce_row]. unfold lsum. cbn [map fst snd].
  unfold taken. cbn [snd]. set (xs := flat_map _ _). rewrite dsum_cons. cbn [dsum fold_right dplus Diff_Z dzero]. rewrite Z.add_0_r, Z.mul_1_l. clear.
  induction xs as [|y xs IH]; [reflexivity|]. cbn [map filter]. rewrite weight_cons', IH. cbn [fst snd dplus dzero Diff_Z]. destruct (eqb y v); cbn [length]; lia.
Qed.
Print Assumptions c63_collect_flatten.
(** Taken apart, a list has its elements with their positions. *)
Theorem c63_collect_positions c out level k w t : reduced_to RCollect c out -> (exists v, there c k v t <> 0) ->
  just_if (exists l i x, listed c k t l /\ nth_error l i = Some x /\ w = VTuple [VInt (Z.of_nat i); x]) (there (linear_of [LFlatMap (TVar 1)] level out) k w t).
Proof.
  intros H N. destruct (H k t) as (vals & C & W & E). rewrite (split_acc _ numbered) by (intros; apply unnest_one).
  rewrite (key_sum t out k (outs RCollect vals)); [|intros x; rewrite outs_weight; symmetry; apply E|intros d Nd; apply (proj2 (eqb_neq _ _)) in Nd; rewrite Nd; reflexivity].
  cbn [fst]. rewrite eqb_refl. apply (some_val c k t vals C W) in N. pose proof (collected_listed c k t vals C W) as L. pose proof (listed_unique c k t vals C W) as U. unfold collected in L, U. destruct vals as [|x l]; [contradiction|].
  cbn [outs reduce_row]. unfold lsum. cbn [map fst snd]. unfold taken. cbn [snd]. set (xs := flat_map _ _) in *. rewrite dsum_cons. cbn [dsum fold_right dplus Diff_Z dzero]. rewrite Z.add_0_r, Z.mul_1_l.
  assert (G : forall ys n, weight (A:=Value) (map (fun v => (v, 1)) (map (fun pe => VTuple [VInt (Z.of_nat (fst pe)); snd pe]) (combine (seq n (length ys)) ys))) w =
    (if existsb (fun pe => eqb (VTuple [VInt (Z.of_nat (fst pe)); snd pe]) w) (combine (seq n (length ys)) ys) then 1 else 0)).
  { induction ys as [|y ys IH]; intros n; [reflexivity|]. cbn [length seq combine map existsb]. rewrite weight_cons', IH. cbn [fst snd]. destruct (eqb_spec (VTuple [VInt (Z.of_nat n); y]) w) as [<-|Nw]; cbn [orb]; [|cbn [dplus dzero Diff_Z]; lia].
    destruct (existsb _ _) eqn:Ex; [|cbn [dplus dzero Diff_Z]; lia]. exfalso. apply existsb_exists in Ex as ((m & z) & Hi & He). apply (proj1 (eqb_eq _ _)) in He. cbn [fst snd] in He. injection He as Em _.
    apply in_combine_l in Hi. apply in_seq in Hi. lia. }
  unfold numbered. rewrite G. apply just_one. rewrite existsb_exists. split.
  - intros ((i & y) & Hi & He). apply (proj1 (eqb_eq _ _)) in He. cbn [fst snd] in He. exists xs, i, y. split; [exact L|]. split; [|auto].
    clear -Hi. assert (Q : forall (ys : list Value) n, In (i, y) (combine (seq n (length ys)) ys) -> (n <= i)%nat /\ nth_error ys (i - n) = Some y).
    { induction ys as [|z zs IH]; intros n; cbn [length seq combine]; [intros []|]. intros [[= -> ->]|Hi']; [split; [lia|rewrite Nat.sub_diag; reflexivity]|]. destruct (IH (S n) Hi') as (A & B). split; [lia|].
      replace (i - n)%nat with (S (i - S n)) by lia. exact B. }
    apply Q in Hi as (_ & Hi). rewrite Nat.sub_0_r in Hi. exact Hi.
  - intros (l' & i & y & Hl & Hy & ->). rewrite (U _ Hl) in Hy. exists (i, y). cbn [fst snd]. split; [|apply eqb_refl].
    clear -Hy. assert (Q : forall (ys : list Value) n j, nth_error ys j = Some y -> In ((n + j)%nat, y) (combine (seq n (length ys)) ys)).
    { clear. induction ys as [|z zs IH]; intros n j; [destruct j; discriminate|]. destruct j as [|j]; cbn [nth_error length seq combine]; [intros [= ->]; left; f_equal; lia|]. intros Hj. right. specialize (IH (S n) j Hj). replace (n + S j)%nat with (S n + j)%nat by lia. exact IH. }
    exact (Q xs 0%nat i Hy).
Qed.
Print Assumptions c63_collect_positions.

(** *** Examples *)
Definition i (n : Z) : Value := VInt n.
(** the sum of a list in a field, if the tag of another says so; a spread; a short cut that saves a panic *)
Definition sum_if : Term := TCase (TProj (TVar 1) 0) [TInt 0; TFold (TProj (TBound 0) 1) (TInt 0) (TBinary BAdd (TBound 0) (TBound 1))] None.
Definition c63_env : list Value := [i 7; VTuple [VVariant 1 (VTuple [i 5; VList [i 1; i 2; i 3]]); i 9]].
Example c63_sum : computes c63_env sum_if (i 6).
Proof. apply c63_eval. reflexivity. Qed.
Example c63_spread : computes c63_env (TTuple [TVar 0; TSpread (TVar 1); TInt 2]) (VTuple [i 7; VVariant 1 (VTuple [i 5; VList [i 1; i 2; i 3]]); i 9; i 2]).
Proof. apply c63_eval. reflexivity. Qed.
Example c63_short_cut : computes c63_env (TBinary BAnd (TInt 0) (TProj (TVar 0) 1)) (i 0) /\ forall v, ~ computes c63_env (TBinary BAnd (TInt 1) (TProj (TVar 0) 1)) v.
Proof. split; [apply c63_eval; reflexivity|apply c63_panic; reflexivity]. Qed.
Example c63_draw : exists n, computes c63_env (THash [TInt 10; TVar 0]) (VInt n) /\ 0 <= n < 10.
Proof.
  destruct (eval (THash [TInt 10; TVar 0]) c63_env) as [v|] eqn:E; [|discriminate]. apply c63_eval in E. destruct (c63_hash _ _ _ _ E) as (n & -> & B & U). exists n. split; [exact E|]. split; [lia|]. apply (U 10); [constructor|lia].
Qed.
(** a key with one 2 and two 3s *)
Definition c63_vals : list (Value * Z) := [(i 2, 1); (i 3, 2)].
Definition c63_in : coll := from_start (i 1) c63_vals.
Lemma c63_consolidated : consolidated (A:=Value) c63_vals.
Proof. split; repeat constructor. Qed.
Example c63_reduced :
  reduced_to RMin c63_in [((i 1, i 2), tmin, 1)] /\ reduced_to RDistinct c63_in [((i 1, VTuple []), tmin, 1)] /\
  reduced_to RCount c63_in [((i 1, VTuple [i 3]), tmin, 1)] /\ reduced_to RCollect c63_in [((i 1, VList [i 2; i 3; i 3]), tmin, 1)].
Proof. repeat split; apply (fun red => from_start_reduced red (i 1) c63_vals c63_consolidated). Qed.
Example c63_flattened : forall level t, there (linear_of [LFlatMap (TVar 1); LProject {| p_key := TVar 0; p_val := TProj (TVar 1) 1 |}] level [((i 1, VList [i 2; i 3; i 3]), tmin, 1)]) (i 1) (i 3) t = 2.
Proof.
  intros level t. rewrite (c63_collect_flatten c63_in) by apply c63_reduced. unfold c63_in. rewrite from_start_there. reflexivity.
Qed.
(** A key whose values are all there less than never is collected to an empty list. *)
Example c63_negative : reduced_to RCollect (from_start (i 1) [(i 2, -1)]) [((i 1, VList []), tmin, 1)].
Proof. apply (from_start_reduced RCollect (i 1) [(i 2, -1)]). split; repeat constructor. Qed.
