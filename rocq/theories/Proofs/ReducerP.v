(** What the reducers keep, and that a list that was collected can be taken apart again. *)
From Verif Require Export Spec.TermSpec Proofs.DdirMeansP.
From Verif Require Proofs.OptimizeP.
From Verif Require Import Proofs.DdirSnapP Base.Collections Base.Order Base.Arrays.
Local Open Scope Z_scope.

Lemma row_eqb (k v k' v' : Value) : eqb (A:=row) (k, v) (k', v') = eqb k k' && eqb v v'.
Proof.
  destruct (eqb_spec k k') as [->|N]; destruct (eqb_spec v v') as [->|M]; cbn [andb]; [apply eqb_refl|apply eqb_neq; congruence..].
Qed.
Definition upto (t : itime) (c : coll) : list (row * Z) := map (fun u => (fst (fst u), snd u)) (filter (fun u => tle (snd (fst u)) t) c).
Lemma upto_weight t c d : weight (A:=row) (upto t c) d = acc (D:=row) (T:=itime) c d t.
Proof.
  unfold upto. induction c as [|u c IH]; [reflexivity|]. rewrite (acc_cons' (D:=row) (T:=itime) u c d t), <- IH. cbn [filter]. destruct (tle (snd (fst u)) t); cbn [map]; [rewrite weight_cons'; cbn [fst snd]; rewrite andb_true_r; reflexivity|].
  rewrite andb_false_r, dplus_0_l. reflexivity.
Qed.
Lemma upto_lsum t c (f : row -> Z) : lsum (fun d r => r * f d) (upto t c) = lsum (fun (a : row * itime) r => if tle (snd a) t then r * f (fst a) else 0) c.
Proof. unfold upto, lsum. induction c as [|u c IH]; [reflexivity|]. cbn [filter map]. rewrite dsum_cons, <- IH. destruct (tle (snd (fst u)) t); cbn [map]; [rewrite dsum_cons; reflexivity|]. cbn [dplus Diff_Z]. lia. Qed.
Lemma keyed_weight k (l : list (Value * Z)) k' v : weight (A:=row) (map (fun x => ((k, fst x), snd x)) l) (k', v) = if eqb k k' then weight (A:=Value) l v else 0.
Proof.
  induction l as [|x l IH]; cbn [map]; [rewrite !weight_nil; destruct (eqb k k'); reflexivity|]. rewrite !weight_cons', IH. cbn [fst snd]. rewrite row_eqb. destruct (eqb k k'); cbn [andb]; [reflexivity|]. rewrite dplus_0_l. reflexivity.
Qed.
(** A sum over the records with a key is one over the key's values. *)
Lemma key_sum t c k (vals : list (Value * Z)) (f : row -> Z) : (forall v, weight (A:=Value) vals v = there c k v t) -> (forall d, fst d <> k -> f d = 0) ->
  lsum (fun d r => r * f d) (upto t c) = lsum (fun v r => r * f (k, v)) vals.
Proof.
  intros W F. transitivity (lsum (fun d r => r * f d) (map (fun x => ((k, fst x), snd x)) vals)).
  - apply (lsum_local (A:=row) _ (fun d => eqb (fst d) k)).
    + intros a; cbn [dzero Diff_Z]; lia.
    + intros a x y; cbn [dplus Diff_Z]; lia.
    + intros a r E. apply (proj1 (eqb_neq _ _)) in E. rewrite F by auto. cbn [dzero Diff_Z]; lia.
    + intros [k' v] E. cbn [fst] in E. apply (proj1 (eqb_eq _ _)) in E. subst k'. rewrite upto_weight, keyed_weight, eqb_refl, W. reflexivity.
  - unfold lsum. rewrite map_map. reflexivity.
Qed.

Definition outs (red : Reducer) (vals : list (Value * Z)) : list (Value * Z) := match vals with [] => [] | _ => reduce_row red vals end.
Lemma outs_weight red vals v : weight (A:=Value) (outs red vals) v = match vals with [] => 0 | _ => weight (A:=Value) (reduce_row red vals) v end.
Proof. destruct vals; reflexivity. Qed.
Lemma just_one (P : Prop) (b : bool) : (b = true <-> P) -> just_if P (if b then 1 else 0).
Proof. intros H. unfold just_if. destruct b; [left|right]; split; auto; [tauto|]. intros p. apply H in p. discriminate. Qed.
Lemma just_zero (P : Prop) : ~ P -> just_if P 0. Proof. intros H. right. auto. Qed.

Section Key.
Context (c : coll) (k : Value) (t : itime) (vals : list (Value * Z)) (C : consolidated (A:=Value) vals) (W : forall v, weight (A:=Value) vals v = there c k v t).
Lemma vals_In v : In v (map fst vals) <-> there c k v t <> 0. Proof. rewrite <- W. apply (consolidated_in_weight vals v C). Qed.
Lemma min_first v r rest : vals = (v, r) :: rest -> reduce_row RMin vals = [(v, 1)] /\ forall w, In w (map fst rest) -> lt v w.
Proof.
  intros E. pose proof C as Q. rewrite E in Q. destruct Q as (S & _). cbn [map fst] in S. apply strictly_sorted_cons_inv in S as (_ & F). rewrite Forall_forall in F. split; [|exact F].
  rewrite E. cbn [reduce_row]. do 2 f_equal. clear E. revert F. induction rest as [|x rest IH]; intros F; cbn [fold_left]; auto.
  pose proof (F (fst x) ltac:(left; auto)) as L. unfold lt in L. cbn [cmp Ord_value] in L. rewrite value_cmp_antisym, L. simpl. apply IH. intros w Hw. apply F. right. auto.
Qed.
Lemma min_out v : just_if (least c k v t) (weight (A:=Value) (outs RMin vals) v).
Proof.
  rewrite outs_weight. destruct vals as [|[w r] rest] eqn:Ev.
  - apply just_zero. intros (H & _). apply H. rewrite <- W. reflexivity.
  - rewrite <- Ev in *. destruct (min_first w r rest Ev) as (-> & F). rewrite weight_one. apply just_one. rewrite eqb_eq. split.
    + intros <-. split; [apply vals_In; rewrite Ev; left; auto|]. intros x Hx. apply vals_In in Hx. rewrite Ev in Hx. destruct Hx as [<-|Hx]; [left; auto|right; auto].
    + intros (H & L). apply vals_In in H. rewrite Ev in H. destruct H as [H|H]; [exact H|]. apply F in H. assert (Hw : there c k w t <> 0) by (apply vals_In; rewrite Ev; left; auto).
      destruct (L w Hw) as [->|L']; auto. unfold lt in *. rewrite cmp_antisym, H in L'. discriminate.
Qed.
Lemma some_val : (vals <> [] <-> exists v, there c k v t <> 0).
Proof.
  split.
  - destruct vals as [|[v r] l] eqn:E; [congruence|]. rewrite <- E in *. intros _. exists v. apply vals_In. rewrite E. left. auto.
  - intros (v & H) E. apply vals_In in H. rewrite E in H. exact H.
Qed.
Lemma distinct_out v : just_if (v = v_unit /\ exists w, there c k w t <> 0) (weight (A:=Value) (outs RDistinct vals) v).
Proof.
  rewrite outs_weight. pose proof some_val as SV. destruct vals as [|x l]; [apply just_zero; tauto|]. cbn [reduce_row]. rewrite weight_one. apply just_one. rewrite eqb_eq. split; [intros <-; split; auto; apply SV; discriminate|intros (-> & _); auto].
Qed.
Lemma count_sum : fold_left (fun s x => s + snd x) vals 0 = key_there c k t.
Proof.
  unfold key_there. rewrite acc_lsum.
  assert (E : lsum (fun (a : Value * itime) r => if eqb (fst a) k && tle (snd a) t then r else dzero) (map (fun u : iupdate => (fst (fst (fst u)), snd (fst u), snd u)) c) =
    lsum (fun d r => r * (if eqb (fst d) k then 1 else 0)) (upto t c)).
  { rewrite upto_lsum. unfold lsum. rewrite map_map. f_equal. apply map_ext. intros u. cbn [fst snd dzero Diff_Z]. destruct (eqb _ _), (tle _ _); cbn [andb]; lia. }
  etransitivity; [|symmetry; exact E]. rewrite (key_sum t c k vals) by (auto; intros d H; rewrite (proj2 (eqb_neq _ _) H); reflexivity). cbn [fst]. rewrite eqb_refl. clear.
  assert (G : forall l a, fold_left (fun (s : Z) (x : Value * Z) => s + snd x) l a = a + lsum (fun _ r => r * 1) l).
  { induction l as [|x l IH]; intros a; cbn [fold_left]; [unfold lsum; simpl; lia|]. rewrite IH. unfold lsum. cbn [map]. rewrite dsum_cons. cbn [dplus Diff_Z]. lia. }
  rewrite G. lia.
Qed.
Lemma count_out v : just_if (0 < key_there c k t /\ v = VTuple [VInt (key_there c k t)]) (weight (A:=Value) (outs RCount vals) v).
Proof.
  rewrite outs_weight. pose proof count_sum as CS. destruct vals as [|x l] eqn:Ev.
  - apply just_zero. intros (H & _). rewrite <- CS in H. simpl in H. lia.
  - cbn [reduce_row]. rewrite CS. destruct (Z.ltb_spec 0 (key_there c k t)) as [H|H].
    + rewrite weight_one. apply just_one. rewrite eqb_eq. split; [intros <-; auto|intros (_ & ->); auto].
    + apply just_zero. lia.
Qed.
Definition collected : list Value := flat_map (fun x => repeat (fst x) (Z.to_nat (Z.max (snd x) 0))) vals.
Lemma occurs l (H : consolidated (A:=Value) l) x : Z.of_nat (length (filter (fun y => eqb y x) (flat_map (fun x => repeat (fst x) (Z.to_nat (Z.max (snd x) 0))) l))) = Z.max 0 (weight (A:=Value) l x).
Proof.
  assert (R : forall y n, length (filter (fun z : Value => eqb z x) (repeat y n)) = if eqb y x then n else 0%nat) by (intros y n; destruct (eqb y x) eqn:E; induction n as [|n IH]; cbn [repeat filter]; rewrite ?E; simpl; auto).
  induction l as [|[v r] l IH]; [reflexivity|]. apply consolidated_cons_inv in H as (H3 & H2 & H1). specialize (IH H3). cbn [flat_map fst snd]. rewrite filter_app, app_length, R, weight_cons'. cbn [fst snd].
  destruct (eqb_spec v x) as [->|N].
  - assert (Z0 : weight (A:=Value) l x = 0) by exact (weight_lt_zero (R:=Z) l x H1). rewrite Z0 in *. cbn [dplus Diff_Z]. lia.
  - rewrite dplus_0_l. lia.
Qed.
Lemma collected_sorted l : consolidated (A:=Value) l -> StronglySorted (fun x y => x = y \/ lt x y) (flat_map (fun x => repeat (fst x) (Z.to_nat (Z.max (snd x) 0))) l).
Proof.
  induction l as [|[v r] l IH]; intros H; [constructor|]. apply consolidated_cons_inv in H as (H3 & H2 & H1). specialize (IH H3). cbn [flat_map fst snd].
  assert (B : Forall (fun y => v = y \/ lt v y) (flat_map (fun x => repeat (fst x) (Z.to_nat (Z.max (snd x) 0))) l)).
  { apply Forall_forall. intros y Hy. apply in_flat_map in Hy as (z & Hz & Hy). apply repeat_spec in Hy. subst y. right. rewrite Forall_forall in *. apply H1; auto. }
  induction (Z.to_nat (Z.max r 0)) as [|n IHn]; cbn [repeat app]; auto. constructor; auto. apply Forall_app. split; [|exact B]. apply Forall_forall. intros y Hy. apply repeat_spec in Hy. auto.
Qed.
Lemma sorted_same (l1 l2 : list Value) : StronglySorted (fun x y => x = y \/ lt x y) l1 -> StronglySorted (fun x y => x = y \/ lt x y) l2 ->
  (forall x, length (filter (fun y => eqb y x) l1) = length (filter (fun y => eqb y x) l2)) -> l1 = l2.
Proof.
  revert l2. induction l1 as [|x l1 IH]; intros l2 S1 S2 H.
  - destruct l2 as [|y l2]; auto. specialize (H y). cbn [filter] in H. rewrite eqb_refl in H. discriminate.
  - assert (In1 : forall l y, length (filter (fun z : Value => eqb z y) l) <> 0%nat <-> In y l).
    { intros l y. split.
      - intros N. destruct (filter (fun z => eqb z y) l) as [|z q] eqn:E; [contradiction|]. assert (Hz : In z (filter (fun z => eqb z y) l)) by (rewrite E; left; auto). apply filter_In in Hz as (Hz & Ez). apply (proj1 (eqb_eq _ _)) in Ez. subst; auto.
      - intros Hy E. assert (Hz : In y (filter (fun z => eqb z y) l)) by (apply filter_In; split; [auto|apply eqb_refl]). destruct (filter _ l); [exact Hz|discriminate]. }
    inversion S1 as [|? ? S1' F1]; subst. destruct l2 as [|y l2].
    { specialize (H x). cbn [filter] in H. rewrite eqb_refl in H. discriminate. }
    inversion S2 as [|? ? S2' F2]; subst. rewrite Forall_forall in F1, F2.
    assert (x = y).
    { assert (Hy : In y (x :: l1)) by (apply In1; rewrite H; apply In1; left; auto). assert (Hx : In x (y :: l2)) by (apply In1; rewrite <- H; apply In1; left; auto).
      destruct Hy as [->|Hy]; auto. destruct Hx as [->|Hx]; auto. destruct (F1 _ Hy) as [->|L1]; auto. destruct (F2 _ Hx) as [->|L2]; auto. unfold lt in *. rewrite cmp_antisym, L1 in L2. discriminate. }
    subst y. f_equal. apply IH; auto. intros z. specialize (H z). cbn [filter] in H. destruct (eqb x z); cbn [length] in H; lia.
Qed.
Lemma collected_listed : listed c k t collected.
Proof. split; [apply collected_sorted, C|]. intros x. unfold collected. rewrite (occurs vals C), W. reflexivity. Qed.
Lemma listed_unique l : listed c k t l -> l = collected.
Proof. intros (S & N). destruct collected_listed as (S' & N'). apply sorted_same; auto. intros x. apply Nat2Z.inj. rewrite N, N'. reflexivity. Qed.
Lemma collect_out v : just_if ((exists w, there c k w t <> 0) /\ exists l, v = VList l /\ listed c k t l) (weight (A:=Value) (outs RCollect vals) v).
Proof.
  rewrite outs_weight. pose proof some_val as SV. pose proof collected_listed as L. pose proof listed_unique as U. unfold collected in L, U. destruct vals as [|x l] eqn:Ev; [apply just_zero; tauto|]. cbn [reduce_row]. rewrite weight_one. apply just_one. rewrite eqb_eq. split.
  - intros <-. split; [apply SV; discriminate|]. eexists. split; [reflexivity|exact L].
  - intros (_ & l' & -> & H). rewrite (U _ H). reflexivity.
Qed.
End Key.

(** ** Taking lists apart *)
Definition unnest : list LinearOp := [LFlatMap (TVar 1)].
Definition flatten : list LinearOp := [LFlatMap (TVar 1); LProject {| p_key := TVar 0; p_val := TProj (TVar 1) 1 |}].
Definition numbered (xs : list Value) : list Value := map (fun pe => VTuple [VInt (Z.of_nat (fst pe)); snd pe]) (combine (seq 0 (length xs)) xs).
Definition taken (f : list Value -> list Value) (d : row) : list (Value * Z) := match snd d with VList xs => map (fun v => (v, 1)) (f xs) | _ => [] end.
Lemma tmin_join (t : itime) : join t tmin = t. Proof. apply OptimizeP.join_tmin_r. Qed.
Lemma unnest_one level d t r : linear_of unnest level [(d, t, r)] = map (fun x => ((fst d, fst x), t, r * snd x)) (taken numbered d).
Proof.
  destruct d as [k v]. unfold linear_of, unnest. cbn [flat_map fst snd quiet_ops]. rewrite !app_nil_r. unfold op_results. cbn [eval nth_error]. unfold taken. cbn [snd fst]. destruct v; try reflexivity. cbn [quietly].
  unfold numbered. rewrite !map_map. apply map_ext. intros pe. cbn [fst snd]. rewrite tmin_join. reflexivity.
Qed.
Lemma flatten_one level d t r : linear_of flatten level [(d, t, r)] = map (fun x => ((fst d, fst x), t, r * snd x)) (taken (fun xs => xs) d).
Proof.
  destruct d as [k v]. unfold linear_of, flatten. cbn [flat_map fst snd quiet_ops]. rewrite !app_nil_r. unfold op_results at 2. cbn [eval nth_error]. unfold taken. cbn [snd fst]. destruct v as [| | |xs]; try reflexivity. cbn [quietly].
  rewrite flat_map_concat_map, map_map, <- flat_map_concat_map. rewrite map_map. unfold op_results. cbn [eval eval_ref nth_error p_key p_val quietly fst snd].
  generalize 0%nat. induction xs as [|x xs IH]; intros n; [reflexivity|]. cbn [length seq combine flat_map map app fst snd]. rewrite tmin_join. f_equal. apply IH.
Qed.
Lemma split_acc ops f level c k v t : (forall d s r, linear_of ops level [(d, s, r)] = map (fun x => ((fst d, fst x), s, r * snd x)) (taken f d)) ->
  there (linear_of ops level c) k v t = lsum (fun d r => r * (if eqb (fst d) k then weight (A:=Value) (taken f d) v else 0)) (upto t c).
Proof.
  intros H. rewrite upto_lsum. unfold there. induction c as [|[[d s] r] c IH]; [reflexivity|]. change ((d, s, r) :: c) with ([(d, s, r)] ++ c). rewrite linear_app, (acc_app (D:=row) (T:=itime) (linear_of ops level [(d, s, r)]) (linear_of ops level c)), IH, H, lsum_app. f_equal.
  unfold lsum. cbn [map fst snd]. rewrite dsum_cons. cbn [dsum fold_right dplus Diff_Z]. rewrite Z.add_0_r.
  induction (taken f d) as [|x l IHl]; cbn [map]; [rewrite weight_nil; cbn [dzero Diff_Z]; destruct (tle s t), (eqb (fst d) k); cbn; lia|]. etransitivity; [apply (acc_cons' (D:=row) (T:=itime))|]. rewrite IHl, weight_cons'. cbn [fst snd]. rewrite row_eqb.
  destruct (tle s t), (eqb (fst d) k), (eqb (fst x) v); cbn [andb dplus dzero Diff_Z]; lia.
Qed.

(** ** One key's values from the start *)
Definition from_start (k : Value) (l : list (Value * Z)) : coll := map (fun x => ((k, fst x), tmin, snd x)) l.
Lemma from_start_there k l k' v t : there (from_start k l) k' v t = if eqb k k' then weight (A:=Value) l v else 0.
Proof.
  unfold there, from_start. induction l as [|x l IH]; [destruct (eqb k k'); reflexivity|]. cbn [map]. etransitivity; [apply (acc_cons' (D:=row) (T:=itime))|]. rewrite IH. cbn [fst snd]. rewrite row_eqb, weight_cons', tmin_le.
  destruct (eqb k k'), (eqb (fst x) v); cbn [andb dplus dzero Diff_Z]; lia.
Qed.
Lemma from_start_reduced red k vals : consolidated (A:=Value) vals -> reduced_to red (from_start k vals) (from_start k (outs red vals)).
Proof.
  intros C k' t. destruct (eqb_spec k k') as [<-|N].
  - exists vals. split; [exact C|]. split; intros v.
    + symmetry. etransitivity; [apply from_start_there|]. rewrite eqb_refl. reflexivity.
    + etransitivity; [apply from_start_there|]. rewrite eqb_refl. apply outs_weight.
  - exists []. split; [apply consolidated_nil|]. apply (proj2 (eqb_neq _ _)) in N. split; intros v; [symmetry|]; (etransitivity; [apply from_start_there|]); rewrite N; reflexivity.
Qed.
