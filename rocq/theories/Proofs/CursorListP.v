(** * The merged cursor presents the union of its sources *)
From Verif Require Import Base.Arrays Base.Collections Spec.Presents Proofs.CursorP.

Lemma nth_error_skipn {A} (l : list A) n i : nth_error (skipn n l) i = nth_error l (n + i).
Proof. revert l; induction n as [|n IH]; intros [|x l]; simpl; auto. destruct i; auto. Qed.

(** ** Sets as sorted lists *)
Section SortSet.
Context {A : Type} {OA : Ord A}.
Implicit Types (l : list A) (a b : A).

Lemma in_insert_set a l b : In b (insert_set a l) <-> b = a \/ In b l.
Proof.
  induction l as [|c l IH]; simpl; [firstorder|]. destruct (cmp_spec a c) as [->|H|H]; simpl.
  - firstorder.
  - firstorder.
  - rewrite IH. firstorder.
Qed.
Lemma in_sort_set l b : In b (sort_set l) <-> In b l.
Proof.
  induction l as [|a l IH]; simpl; [tauto|]. rewrite in_insert_set, IH. firstorder.
Qed.
Lemma insert_set_sorted a l : strictly_sorted l -> strictly_sorted (insert_set a l).
Proof.
  induction l as [|c l IH]; intros H; simpl.
  - constructor.
  - apply strictly_sorted_cons_inv in H as [Hs Hf]. destruct (cmp_spec a c) as [->|Hlt|Hlt].
    + apply strictly_sorted_cons; auto.
    + constructor; auto. apply strictly_sorted_cons; auto.
    + apply strictly_sorted_cons; auto. apply Forall_forall. intros x Hx. apply in_insert_set in Hx as [->|Hx]; auto.
      rewrite Forall_forall in Hf; auto.
Qed.
Lemma sort_set_sorted l : strictly_sorted (sort_set l).
Proof. induction l as [|a l IH]; simpl; [constructor|]. apply insert_set_sorted; auto. Qed.

(** ** Positions given by downward closed predicates *)
Definition dc (f : A -> bool) : Prop := forall x y, lt x y -> f y = true -> f x = true.
Local Notation pl := prefix_len.

Lemma pl_char (h : A -> bool) l n : n <= length l -> (forall i x, i < n -> nth_error l i = Some x -> h x = true) ->
  (forall x, nth_error l n = Some x -> h x = false) -> pl h l = n.
Proof.
  revert l; induction n as [|n IH]; intros l Hn H1 H2.
  - destruct l as [|x l]; simpl; auto. rewrite (H2 x eq_refl). auto.
  - destruct l as [|x l]; simpl in *; [lia|]. rewrite (H1 0 x) by (auto; lia). f_equal. apply IH; [lia| |auto].
    intros i y Hi. apply (H1 (S i)). lia.
Qed.
Lemma pl_le (h : A -> bool) l : pl h l <= length l.
Proof. induction l; simpl; [lia|]. destruct (h a); simpl; lia. Qed.
Lemma pl_before (h : A -> bool) l i x : i < pl h l -> nth_error l i = Some x -> h x = true.
Proof.
  revert i; induction l as [|a l IH]; intros i; simpl; [lia|]. destruct (h a) eqn:E; [|lia].
  destruct i as [|i]; simpl; intros Hi Hx; [congruence|]. eapply IH; eauto. lia.
Qed.
Lemma pl_at (h : A -> bool) l x : nth_error l (pl h l) = Some x -> h x = false.
Proof. induction l as [|a l IH]; simpl; [discriminate|]. destruct (h a) eqn:E; simpl; auto. congruence. Qed.

Lemma sorted_nth l i j x y : strictly_sorted l -> i < j -> nth_error l i = Some x -> nth_error l j = Some y -> lt x y.
Proof.
  revert i j; induction l as [|a l IH]; intros i j H Hij Hi Hj.
  - destruct i; discriminate.
  - apply strictly_sorted_cons_inv in H as [Hs Hf]. destruct j as [|j]; [lia|]. destruct i as [|i]; simpl in *.
    + inversion Hi; subst. rewrite Forall_forall in Hf. apply Hf. eapply nth_error_In; eauto.
    + eapply (IH i j); eauto. lia.
Qed.

Lemma pl_in (f : A -> bool) l x : strictly_sorted l -> dc f -> In x l -> f x = false ->
  exists y, nth_error l (pl f l) = Some y /\ le y x.
Proof.
  intros Hs Hd Hin Hx. apply In_nth_error in Hin as [i Hi].
  destruct (Nat.lt_ge_cases i (pl f l)) as [H|H].
  - rewrite (pl_before f l i x H Hi) in Hx. discriminate.
  - destruct (nth_error l (pl f l)) as [y|] eqn:E.
    + exists y. split; auto. apply Nat.lt_eq_cases in H as [H|H].
      * apply lt_le. eapply sorted_nth; eauto.
      * subst i. rewrite E in Hi. inversion Hi; subst. apply le_refl.
    + apply nth_error_None in E. assert (i < length l) by (apply nth_error_Some; congruence). lia.
Qed.

(** Moving past an element, and moving to a target. *)
Lemma dc_leb k : dc (fun x => leb x k).
Proof. intros x y H E. apply leb_le in E. apply leb_le. apply lt_le. eapply lt_le_trans; eauto. Qed.
Lemma dc_or (f : A -> bool) k : dc f -> dc (fun x => f x || ltb x k).
Proof.
  intros Hd x y H E. apply orb_true_iff in E as [E|E]; apply orb_true_iff; [left; eapply Hd; eauto|right].
  apply ltb_lt in E. apply ltb_lt. eapply lt_trans; eauto.
Qed.

Lemma pl_step (f : A -> bool) l k : dc f -> f k = false -> strictly_sorted l -> nth_error l (pl f l) = Some k ->
  pl (fun x => leb x k) l = S (pl f l).
Proof.
  intros Hd Hk Hs Hat. apply pl_char.
  - assert (pl f l < length l) by (apply nth_error_Some; congruence). lia.
  - intros i x Hi Hx. apply leb_le. apply Nat.lt_succ_r, Nat.lt_eq_cases in Hi as [Hi| ->].
    + apply lt_le. eapply sorted_nth; eauto.
    + rewrite Hat in Hx; inversion Hx; subst. apply le_refl.
  - intros x Hx. apply leb_gt. eapply sorted_nth; eauto.
Qed.
Lemma pl_stay (f : A -> bool) l k : dc f -> f k = false -> (forall y, nth_error l (pl f l) = Some y -> lt k y) ->
  pl (fun x => leb x k) l = pl f l.
Proof.
  intros Hd Hk Hat. apply pl_char; [apply pl_le| |].
  - intros i x Hi Hx. apply leb_le. pose proof (pl_before f l i x Hi Hx) as Ef.
    destruct (lt_total x k) as [H|[->|H]]; [apply lt_le; auto|apply le_refl|].
    rewrite (Hd _ _ H Ef) in Hk. discriminate.
  - intros x Hx. apply leb_gt; auto.
Qed.
Lemma pl_seek (f : A -> bool) l k : dc f -> strictly_sorted l ->
  pl (fun x => f x || ltb x k) l = pl f l + pl (fun x => ltb x k) (skipn (pl f l) l).
Proof.
  intros Hd Hs. pose proof (pl_le f l) as HL. pose proof (pl_le (fun x => ltb x k) (skipn (pl f l) l)) as HL2.
  rewrite skipn_length in HL2. apply pl_char; [lia| |].
  - intros i x Hi Hx. apply orb_true_iff. destruct (Nat.lt_ge_cases i (pl f l)) as [H|H].
    + left. eapply pl_before; eauto.
    + right. apply (pl_before (fun x => ltb x k) (skipn (pl f l) l) (i - pl f l)); [lia|].
      rewrite nth_error_skipn. rewrite <- Hx. f_equal. lia.
  - intros x Hx. apply orb_false_iff. split.
    + destruct (f x) eqn:E; auto. destruct (nth_error l (pl f l)) as [y|] eqn:Ey.
      * pose proof (pl_at f l y Ey) as Ef.
        destruct (pl (fun x => ltb x k) (skipn (pl f l) l)) as [|m] eqn:Em.
        -- rewrite Nat.add_0_r in Hx. congruence.
        -- assert (Hlt : lt y x) by (eapply (sorted_nth l (pl f l)); [auto| |eauto|eauto]; lia).
           rewrite (Hd _ _ Hlt E) in Ef. discriminate.
      * apply nth_error_None in Ey. assert (pl f l + pl (fun x => ltb x k) (skipn (pl f l) l) < length l) by (apply nth_error_Some; congruence). lia.
    + apply (pl_at (fun x => ltb x k) (skipn (pl f l) l)). rewrite nth_error_skipn. exact Hx.
Qed.
End SortSet.

(** ** Indices of selected components *)
Section Select.
Context {X A : Type} {OA : Ord A}.
Fixpoint sel (n : nat) (P : X -> bool) (l : list X) : list nat :=
  match l with [] => [] | x :: l => if P x then n :: sel (S n) P l else sel (S n) P l end.
Fixpoint items (n : nat) (P : X -> bool) (o : X -> option A) (l : list X) : list (nat * option A) :=
  match l with [] => [] | x :: l => if P x then (n, o x) :: items (S n) P o l else items (S n) P o l end.

Definition o_is (u o : option A) : bool := match u, o with Some a, Some b => eqb a b | _, _ => false end.

Lemma o_is_spec u o : o_is u o = true <-> exists a, u = Some a /\ o = Some a.
Proof.
  unfold o_is. destruct u as [a|], o as [b|]; split; try discriminate; try (intros (c & H1 & H2); discriminate).
  - destruct (eqb_spec a b) as [->|]; [eauto|discriminate].
  - intros (c & H1 & H2). inversion H1; inversion H2; subst. apply eqb_refl.
Qed.

Lemma items_filter n P o u l : map fst (filter (fun it => o_is u (snd it)) (items n P o l)) = sel n (fun x => P x && o_is u (o x)) l.
Proof.
  revert n; induction l as [|x l IH]; intros n; simpl; auto. destruct (P x); simpl; [|apply IH].
  destruct (o_is u (o x)); simpl; [f_equal|]; apply IH.
Qed.

Lemma in_items n P o l it : In it (items n P o l) -> exists x, In x l /\ P x = true /\ snd it = o x.
Proof.
  revert n; induction l as [|x l IH]; intros n; simpl; [tauto|]. destruct (P x) eqn:E; simpl.
  - intros [<-|H]; [exists x; auto|]. apply IH in H as (y & ? & ? & ?). exists y; auto.
  - intros H. apply IH in H as (y & ? & ? & ?). exists y; auto.
Qed.
Lemma items_in n P o l x : In x l -> P x = true -> exists i, In (i, o x) (items n P o l).
Proof.
  revert n; induction l as [|y l IH]; intros n; simpl; [tauto|]. intros [->|H] E.
  - rewrite E. exists n. left; auto.
  - destruct (IH (S n) H E) as [i Hi]. exists i. destruct (P y); simpl; auto.
Qed.

(** [minimize] selects the components at the least item. *)
Definition is_min (L : list (nat * option A)) (m : option A) : Prop :=
  match m with
  | None => forall it, In it L -> snd it = None
  | Some a => (exists i, In (i, Some a) L) /\ forall i b, In (i, Some b) L -> le a b
  end.

Lemma filter_none (L : list (nat * option A)) (P : nat * option A -> bool) : (forall it, In it L -> P it = false) -> filter P L = [].
Proof. induction L as [|x L IH]; simpl; auto. intros H. rewrite (H x) by auto. apply IH. auto. Qed.

Lemma minimize_step_ok L x m : is_min L m ->
  exists m', is_min (L ++ [x]) m' /\
    minimize_step (map fst (filter (fun it => o_is m (snd it)) L), m) x =
    (map fst (filter (fun it => o_is m' (snd it)) (L ++ [x])), m').
Proof.
  intros H. destruct x as [i o]. unfold minimize_step. simpl. destruct o as [a|].
  - destruct m as [b|].
    + destruct H as [[j Hj] Hm]. destruct (cmp_spec a b) as [->|Hlt|Hlt].
      * exists (Some b). split.
        -- split; [exists j; apply in_or_app; auto|]. intros i' b' Hi. apply in_app_or in Hi as [Hi|[Hi|[]]]; eauto.
           inversion Hi; subst. apply le_refl.
        -- rewrite filter_app, map_app. simpl. rewrite eqb_refl. reflexivity.
      * exists (Some a). split.
        -- split; [exists i; apply in_or_app; simpl; auto|]. intros i' b' Hi. apply in_app_or in Hi as [Hi|[Hi|[]]].
           ++ apply lt_le. eapply lt_le_trans; eauto.
           ++ inversion Hi; subst. apply le_refl.
        -- rewrite filter_app, map_app. simpl. rewrite eqb_refl. simpl.
           rewrite filter_none; auto. intros [i' [b'|]] Hi; auto. simpl. apply eqb_neq. intros <-.
           apply (lt_irrefl a). eapply lt_le_trans; eauto.
      * exists (Some b). split.
        -- split; [exists j; apply in_or_app; auto|]. intros i' b' Hi. apply in_app_or in Hi as [Hi|[Hi|[]]]; eauto.
           inversion Hi; subst. apply lt_le; auto.
        -- rewrite filter_app, map_app. simpl. rewrite (proj2 (eqb_neq b a)); [simpl; rewrite app_nil_r; auto|].
           intros ->. apply (lt_irrefl _ Hlt).
    + exists (Some a). split.
      * split; [exists i; apply in_or_app; simpl; auto|]. intros i' b' Hi. apply in_app_or in Hi as [Hi|[Hi|[]]].
        -- apply H in Hi. discriminate.
        -- inversion Hi; subst. apply le_refl.
      * rewrite !filter_app, !map_app. simpl. rewrite eqb_refl. simpl.
        rewrite !filter_none; auto. intros [i' [b'|]] Hi; auto. apply H in Hi. discriminate.
  - exists m. split.
    + destruct m as [b|].
      * destruct H as [[j Hj] Hm]. split; [exists j; apply in_or_app; auto|].
        intros i' b' Hi. apply in_app_or in Hi as [Hi|[Hi|[]]]; eauto. discriminate.
      * intros it Hi. apply in_app_or in Hi as [Hi|[<-|[]]]; auto.
    + rewrite filter_app, map_app. simpl. destruct m; simpl; rewrite app_nil_r; auto.
Qed.

Lemma is_min_unique L m m' : is_min L m -> is_min L m' -> m = m'.
Proof.
  destruct m as [a|], m' as [b|]; simpl; auto.
  - intros [[i Hi] H1] [[j Hj] H2]. f_equal. apply le_antisym; eauto.
  - intros [[i Hi] _] H. apply H in Hi. discriminate.
  - intros H [[i Hi] _]. apply H in Hi. discriminate.
Qed.

Lemma minimize_ok L m : is_min L m -> minimize L = map fst (filter (fun it => o_is m (snd it)) L).
Proof.
  intros H. unfold minimize.
  assert (G : forall L2 L1 m1, is_min L1 m1 -> exists m2, is_min (L1 ++ L2) m2 /\
    fold_left minimize_step L2 (map fst (filter (fun it => o_is m1 (snd it)) L1), m1) =
    (map fst (filter (fun it => o_is m2 (snd it)) (L1 ++ L2)), m2)).
  { induction L2 as [|x L2 IH]; intros L1 m1 H1.
    - exists m1. rewrite app_nil_r. split; auto.
    - destruct (minimize_step_ok L1 x m1 H1) as (m' & Hm' & E). cbn [fold_left]. rewrite E.
      destruct (IH _ _ Hm') as (m2 & Hm2 & E2). exists m2. rewrite <- app_assoc in *. split; auto. }
  destruct (G L [] None) as (m2 & Hm2 & E); [intros it []|]. simpl in *. rewrite E. simpl.
  rewrite (is_min_unique _ _ _ Hm2 H). reflexivity.
Qed.

(** The components' positions select exactly the union's position. *)
Lemma minimize_union n (P : X -> bool) (l : list X) (lst : X -> list A) (U : list A) (f : A -> bool) :
  dc f -> strictly_sorted U -> (forall x, In x l -> P x = true -> strictly_sorted (lst x)) ->
  (forall a, In a U <-> exists x, In x l /\ P x = true /\ In a (lst x)) ->
  let o := fun x => nth_error (lst x) (prefix_len f (lst x)) in
  minimize (items n P o l) = sel n (fun x => P x && o_is (nth_error U (prefix_len f U)) (o x)) l.
Proof.
  intros Hd HU Hs Hin o. rewrite <- items_filter. apply minimize_ok.
  destruct (nth_error U (prefix_len f U)) as [u|] eqn:E; simpl.
  - assert (Hu : f u = false) by (eapply pl_at; eauto).
    assert (Hmin : forall a, In a U -> f a = false -> le u a).
    { intros a Ha Ea. destruct (pl_in f U a HU Hd Ha Ea) as (y & Ey & Hy). rewrite E in Ey. inversion Ey; subst; auto. }
    split.
    + destruct (proj1 (Hin u) (nth_error_In _ _ E)) as (x & Hx & HP & Hux).
      destruct (pl_in f (lst x) u (Hs x Hx HP) Hd Hux Hu) as (y & Ey & Hy).
      assert (u = y). { apply le_antisym; auto. apply Hmin; [apply Hin; exists x; repeat split; auto; eapply nth_error_In; eauto|eapply pl_at; eauto]. }
      subst y. destruct (items_in n P o l x Hx HP) as [i Hi]. exists i. unfold o in Hi at 1. rewrite Ey in Hi. exact Hi.
    + intros i b Hi. apply in_items in Hi as (x & Hx & HP & Eo). simpl in Eo. symmetry in Eo. unfold o in Eo.
      apply Hmin; [apply Hin; exists x; repeat split; auto; eapply nth_error_In; eauto|eapply pl_at; eauto].
  - intros it Hi. apply in_items in Hi as (x & Hx & HP & Eo). rewrite Eo. unfold o.
    destruct (nth_error (lst x) _) as [y|] eqn:Ey; auto. exfalso.
    destruct (pl_in f U y HU Hd) as (z & Ez & _); [apply Hin; exists x; repeat split; auto; eapply nth_error_In; eauto|eapply pl_at; eauto|].
    congruence.
Qed.
End Select.

Lemma sel_ext {X} n (P Q : X -> bool) l : (forall x, In x l -> P x = Q x) -> sel n P l = sel n Q l.
Proof.
  revert n; induction l as [|x l IH]; intros n H; simpl; auto. rewrite (H x) by (simpl; auto).
  rewrite (IH (S n)) by (intros; apply H; simpl; auto). reflexivity.
Qed.

Lemma mapM_sel {X B} (F : nat -> option B) (g : X -> B) (P : X -> bool) : forall l n,
  (forall j x, nth_error l j = Some x -> P x = true -> F (n + j) = Some (g x)) ->
  mapM F (sel n P l) = Some (map g (filter P l)).
Proof.
  induction l as [|x l IH]; intros n H; simpl; auto.
  assert (H' : forall j y, nth_error l j = Some y -> P y = true -> F (S n + j) = Some (g y)).
  { intros j y Hy Py. rewrite <- (H (S j) y); auto. f_equal; lia. }
  destruct (P x) eqn:E; [|apply IH; auto]. simpl.
  rewrite <- (Nat.add_0_r n) at 1. rewrite (H 0 x eq_refl E). rewrite (IH (S n) H'). reflexivity.
Qed.
Lemma mapM_sel_items {X A} (F : nat -> option (nat * option A)) (o : X -> option A) (P : X -> bool) : forall l n,
  (forall j x, nth_error l j = Some x -> P x = true -> F (n + j) = Some (n + j, o x)) ->
  mapM F (sel n P l) = Some (items n P o l).
Proof.
  induction l as [|x l IH]; intros n H; simpl; auto.
  assert (H' : forall j y, nth_error l j = Some y -> P y = true -> F (S n + j) = Some (S n + j, o y)).
  { intros j y Hy Py. replace (S n + j) with (n + S j) by lia. apply H; auto. }
  destruct (P x) eqn:E; [|apply IH; auto]. simpl.
  pose proof (H 0 x eq_refl E) as H0. rewrite Nat.add_0_r in H0. rewrite H0. rewrite (IH (S n) H'). reflexivity.
Qed.

Lemma nth_error_app_at {B} (pre : list B) l j : nth_error (pre ++ l) (length pre + j) = nth_error l j.
Proof. rewrite nth_error_app2 by lia. f_equal. lia. Qed.

Section Merged.
Context {St C K V T R : Type} {OK : Ord K} {OV : Ord V}.
Variable ops : CursorOps St C K V T R.
Implicit Types (tr : trie K V T R) (p : pos).
Local Notation pl := prefix_len.

(** A source with its cursor's state and position. *)
Record comp := { xst : St; xc : C; xtr : trie K V T R; xp : pos }.
Definition tsorted tr : Prop := strictly_sorted (map fst tr) /\ Forall (fun x => strictly_sorted (map fst (snd x))) tr.
Definition good (x : comp) : Prop :=
  tsorted (xtr x) /\ exists c0, presents ops (xst x) c0 (xtr x) /\ reached ops (xst x) c0 (xtr x) (xc x) (xp x).

Definition keys tr := map fst tr.
Definition vals tr p := map fst (cur_vals tr p).

Lemma at_key_keys tr p : at_key tr p = nth_error (keys tr) (kp p).
Proof. unfold at_key, keys. rewrite nth_error_map. reflexivity. Qed.
Lemma at_val_vals tr p : at_val tr p = nth_error (vals tr p) (vp p).
Proof. unfold at_val, vals. rewrite nth_error_map. reflexivity. Qed.

Lemma pl_fst {A B} (f : A -> bool) (l : list (A * B)) : pl (fun e => f (fst e)) l = pl f (map fst l).
Proof. induction l as [|[a b] l IH]; simpl; auto. rewrite IH; auto. Qed.

Lemma vals_under_at tr p k : strictly_sorted (keys tr) -> at_key tr p = Some k -> vals_under tr k = cur_vals tr p.
Proof.
  unfold at_key, cur_vals, vals_under. destruct (nth_error tr (kp p)) as [[k' vs]|] eqn:E; simpl; [|discriminate].
  intros Hs Hk; inversion Hk; subst k'. clear Hk. revert E. generalize (kp p) as n. clear p.
  induction tr as [|[k1 vs1] tr IH]; intros n E; [destruct n; discriminate|]. simpl in Hs. apply strictly_sorted_cons_inv in Hs as [Hs Hf].
  rewrite Forall_forall in Hf. destruct n as [|n]; simpl in E |- *.
  - inversion E; subst. rewrite eqb_refl. replace (flat_map _ tr) with (@nil (V * list (T * R))); [apply app_nil_r|].
    clear -Hf. induction tr as [|[k1 v1] tr IH]; simpl; auto. rewrite <- IH by (intros; apply Hf; simpl; auto).
    rewrite app_nil_r. rewrite (proj2 (eqb_neq k1 k)); auto. intros ->. apply (lt_irrefl k). apply Hf. simpl; auto.
  - rewrite (proj2 (eqb_neq k1 k)); [simpl; apply (IH Hs n); auto|]. intros ->. apply (lt_irrefl k). apply Hf.
    apply in_map_iff. exists (k, vs); split; auto. eapply nth_error_In; eauto.
Qed.
Lemma vals_under_none tr k : ~ In k (keys tr) -> vals_under tr k = [].
Proof.
  unfold vals_under, keys. induction tr as [|[k1 v1] tr IH]; simpl; auto. intros H. rewrite IH by tauto. rewrite app_nil_r.
  rewrite (proj2 (eqb_neq k1 k)); auto.
Qed.
Lemma in_vals_under tr k x : In x (vals_under tr k) -> In k (keys tr).
Proof.
  unfold vals_under, keys. intros H. apply in_flat_map in H as ([k' vs] & H1 & H2). simpl in H2.
  destruct (eqb_spec k' k) as [->|]; [|destruct H2]. apply in_map_iff. exists (k, vs); auto.
Qed.

Section Fixed.
Variables (sts : list St) (trs : list (trie K V T R)).
Local Notation U := (union_trie trs).

Lemma keys_U : keys U = sort_set (flat_map (map fst) trs).
Proof. unfold keys, union_trie. rewrite map_map. simpl. apply map_id. Qed.
Lemma keys_U_sorted : strictly_sorted (keys U).
Proof. rewrite keys_U. apply sort_set_sorted. Qed.
Lemma in_keys_U k : In k (keys U) <-> exists tr, In tr trs /\ In k (keys tr).
Proof. rewrite keys_U, in_sort_set, in_flat_map. reflexivity. Qed.

Lemma cur_vals_U p k : at_key U p = Some k ->
  cur_vals U p = map (fun v => (v, flat_map (fun tr => times_under tr k v) trs)) (sort_set (flat_map (fun tr => map fst (vals_under tr k)) trs)).
Proof.
  unfold at_key, cur_vals, union_trie. rewrite nth_error_map. destruct (nth_error (sort_set _) _); simpl; [|discriminate].
  intros H; inversion H; subst; auto.
Qed.
Lemma vals_U p k : at_key U p = Some k -> vals U p = sort_set (flat_map (fun tr => map fst (vals_under tr k)) trs).
Proof. intros H. unfold vals. rewrite (cur_vals_U p k H), map_map. simpl. apply map_id. Qed.
Lemma vals_U_sorted p : strictly_sorted (vals U p).
Proof.
  destruct (at_key U p) as [k|] eqn:E.
  - rewrite (vals_U p k E). apply sort_set_sorted.
  - unfold vals, cur_vals, at_key in *. destruct (nth_error U (kp p)); [discriminate|]. constructor.
Qed.

(** Which sources are at the union's key, and at its value. *)
Definition atk p (x : comp) : bool := o_is (at_key U p) (at_key (xtr x) (xp x)).
Definition atv p (x : comp) : bool := atk p x && o_is (at_val U p) (at_val (xtr x) (xp x)).

Record Pos (X : list comp) (f : K -> bool) (g : V -> bool) (p : pos) : Prop := {
  po_sts : map xst X = sts; po_trs : map xtr X = trs; po_good : Forall good X;
  po_f : dc f; po_g : dc g;
  po_kp : kp p = pl f (keys U); po_kpi : Forall (fun x => kp (xp x) = pl f (keys (xtr x))) X;
  po_vp : vp p = pl g (vals U p);
  po_vpi : Forall (fun x => vp (xp x) = if atk p x then pl g (vals (xtr x) (xp x)) else 0) X
}.
Definition Rel (cl : CursorList C) (p : pos) : Prop := exists X f g, Pos X f g p /\
  cl_cursors cl = map xc X /\ cl_min_key cl = sel 0 (atk p) X /\ cl_min_val cl = sel 0 (atv p) X.

Lemma good_observe x : good x -> c_observe ops (xst x) (xc x) = Some (observation (xtr x) (xp x)).
Proof. intros (_ & c0 & HP & HR). eapply reached_observe; eauto. Qed.
Lemma good_get_key x : good x -> c_get_key ops (xst x) (xc x) = Some (at_key (xtr x) (xp x)).
Proof.
  intros H. apply good_observe in H. unfold observation in H. destruct (at_key (xtr x) (xp x)).
  - apply observe_some in H; tauto.
  - apply observe_none in H; auto.
Qed.
Lemma good_at_key x k : good x -> at_key (xtr x) (xp x) = Some k ->
  c_key ops (xst x) (xc x) = Some k /\ c_get_val ops (xst x) (xc x) = Some (at_val (xtr x) (xp x)) /\
  (forall v, at_val (xtr x) (xp x) = Some v -> c_val ops (xst x) (xc x) = Some v /\ c_map_times ops (xst x) (xc x) = Some (at_times (xtr x) (xp x))).
Proof.
  intros H E. apply good_observe in H. unfold observation in H. rewrite E in H. apply observe_some in H as (_ & H1 & H2 & H3).
  split; auto. split.
  - rewrite H2. destruct (at_val _ _); reflexivity.
  - intros v Ev. rewrite Ev in H3. eauto.
Qed.

Lemma good_nav x op : good x -> legal (xtr x) (xp x) op ->
  exists c', c_nav ops (xst x) (xc x) op = Some c' /\
    good {| xst := xst x; xc := c'; xtr := xtr x; xp := move (xtr x) (xp x) op |}.
Proof.
  intros (Hs & c0 & HP & HR) Hl. destruct (reached_nav _ _ _ _ _ _ op HP HR Hl) as (c' & E & HR').
  exists c'. split; auto. split; auto. exists c0. split; auto.
Qed.

(** Moving the selected sources. *)
Definition moved (op : nav K V) (P : comp -> bool) (x y : comp) : Prop :=
  xst y = xst x /\ xtr y = xtr x /\ good y /\
  if P x then xp y = move (xtr x) (xp x) op /\ c_nav ops (xst x) (xc x) op = Some (xc y) else y = x.

Lemma move_exists op P X : Forall good X -> Forall (fun x => P x = true -> legal (xtr x) (xp x) op) X ->
  exists Y, Forall2 (moved op P) X Y.
Proof.
  intros HG HL. induction X as [|x X IH]; [exists []; constructor|].
  inversion HG; inversion HL; subst. destruct IH as [Y HY]; auto. destruct (P x) eqn:E.
  - destruct (good_nav x op) as (c' & Ec & Hg); auto. eexists (_ :: Y). constructor; eauto.
    unfold moved. rewrite E. split; [|split; [|split; [exact Hg|]]]; auto.
  - exists (x :: Y). constructor; auto. unfold moved. rewrite E. auto.
Qed.

Lemma Forall2_map_eq {A B} (f : A -> B) (Q : A -> A -> Prop) l l' : (forall x y, Q x y -> f y = f x) -> Forall2 Q l l' -> map f l' = map f l.
Proof. intros H; induction 1; simpl; auto. f_equal; auto. Qed.

Lemma cl_apply_sel op P X Y : Forall2 (moved op P) X Y -> forall pst pc, length pst = length pc ->
  cl_apply (fun st c => c_nav ops st c op) (pst ++ map xst X) (sel (length pc) P X) (pc ++ map xc X) = Some (pc ++ map xc Y).
Proof.
  induction 1 as [|x y X Y (E1 & E2 & Hg & HP) _ IH]; intros pst pc HL; simpl; auto.
  assert (L1 : (pst ++ [xst x]) ++ map xst X = pst ++ xst x :: map xst X) by (rewrite <- app_assoc; auto).
  assert (L2 : S (length pc) = length (pc ++ [xc y])) by (rewrite app_length; simpl; lia).
  destruct (P x) eqn:E.
  - destruct HP as [_ Hn]. cbn [cl_apply].
    replace (get (pc ++ xc x :: map xc X) (length pc)) with (Some (xc x)).
    2:{ unfold get. rewrite <- (Nat.add_0_r (length pc)), nth_error_app_at. reflexivity. }
    replace (get (pst ++ xst x :: map xst X) (length pc)) with (Some (xst x)).
    2:{ unfold get. rewrite <- HL, <- (Nat.add_0_r (length pst)), nth_error_app_at. reflexivity. }
    rewrite Hn. unfold put. rewrite (proj2 (Nat.ltb_lt _ _)) by (rewrite app_length; simpl; lia).
    replace (upd (pc ++ xc x :: map xc X) (length pc) (xc y)) with ((pc ++ [xc y]) ++ map xc X).
    2:{ clear. induction pc; simpl; auto. f_equal; auto. }
    rewrite <- L1, L2. rewrite IH by (rewrite !app_length; simpl; lia). rewrite <- app_assoc. reflexivity.
  - subst y. rewrite <- L1, L2.
    replace (pc ++ xc x :: map xc X) with ((pc ++ [xc x]) ++ map xc X) by (rewrite <- app_assoc; auto).
    rewrite IH by (rewrite !app_length; simpl; lia). rewrite <- app_assoc. reflexivity.
Qed.
Lemma cl_apply_every op X Y : Forall2 (moved op (fun _ => true)) X Y ->
  cl_apply_all (fun st c => c_nav ops st c op) (map xst X) (map xc X) = Some (map xc Y).
Proof. induction 1 as [|x y X Y (E1 & E2 & Hg & HP & Hn) _ IH]; simpl; auto. rewrite Hn, IH. reflexivity. Qed.

(** After moving, recomputing the minima restores the relation. *)
Lemma vals_at x k : good x -> at_key (xtr x) (xp x) = Some k -> vals (xtr x) (xp x) = map fst (vals_under (xtr x) k).
Proof. intros ((Hs & _) & _) E. unfold vals. rewrite (vals_under_at _ _ _ Hs E). reflexivity. Qed.
Lemma vals_sorted x : good x -> strictly_sorted (vals (xtr x) (xp x)).
Proof.
  intros ((_ & Hs) & _). unfold vals, cur_vals. destruct (nth_error (xtr x) (kp (xp x))) as [[k vs]|] eqn:E; [|constructor].
  rewrite Forall_forall in Hs. apply (Hs (k, vs)). eapply nth_error_In; eauto.
Qed.

(** Every source holding the union's key is at it. *)
Lemma atk_in X f g p x k : Pos X f g p -> In x X -> at_key U p = Some k -> (atk p x = true <-> In k (keys (xtr x))).
Proof.
  intros HP Hx Hk. unfold atk. rewrite o_is_spec, Hk. pose proof (po_kpi _ _ _ _ HP) as Hi. rewrite Forall_forall in Hi. specialize (Hi x Hx).
  pose proof (po_good _ _ _ _ HP) as Hg. rewrite Forall_forall in Hg. destruct (Hg x Hx) as ((Hs & _) & _).
  rewrite at_key_keys, (po_kp _ _ _ _ HP) in Hk. split.
  - intros (a & Ea & Eb). inversion Ea; subst a. rewrite at_key_keys in Eb. eapply nth_error_In; eauto.
  - intros Hin. exists k. split; auto. rewrite at_key_keys, Hi.
    destruct (pl_in f (keys (xtr x)) k Hs (po_f _ _ _ _ HP) Hin) as (y & Ey & Hy); [eapply pl_at; eauto|].
    rewrite Ey. f_equal. apply le_antisym; auto.
    destruct (pl_in f (keys U) y keys_U_sorted (po_f _ _ _ _ HP)) as (z & Ez & Hz).
    + apply in_keys_U. exists (xtr x). split; [rewrite <- (po_trs _ _ _ _ HP); apply in_map; auto|]. eapply nth_error_In; eauto.
    + eapply pl_at; eauto.
    + rewrite Hk in Ez. inversion Ez; subst; auto.
Qed.

Lemma finish_vals X f g p cl : Pos X f g p -> cl_cursors cl = map xc X -> cl_min_key cl = sel 0 (atk p) X ->
  exists cl', cl_minimize_vals ops sts cl = Some cl' /\ Rel cl' p.
Proof.
  intros HP Ec Ek. unfold cl_minimize_vals. rewrite Ek, Ec.
  pose proof (po_good _ _ _ _ HP) as HG. rewrite Forall_forall in HG.
  rewrite (mapM_sel_items _ (fun x => at_val (xtr x) (xp x)) (atk p) X 0).
  2:{ intros j x Hj Ha. simpl. unfold get. rewrite <- (po_sts _ _ _ _ HP), !nth_error_map, Hj. simpl.
      unfold atk in Ha. apply o_is_spec in Ha as (k & _ & Ea).
      destruct (good_at_key x k (HG x (nth_error_In _ _ Hj)) Ea) as (_ & E & _). rewrite E. reflexivity. }
  eexists; split; [reflexivity|]. exists X, f, g. split; auto. simpl. split; auto. split; auto.
  destruct (at_key U p) as [k|] eqn:Hk.
  - pose proof (minimize_union 0 (atk p) X (fun x => vals (xtr x) (xp x)) (vals U p) g (po_g _ _ _ _ HP) (vals_U_sorted p)) as HM.
    cbv zeta in HM. pose proof (po_vpi _ _ _ _ HP) as Hv. rewrite Forall_forall in Hv.
    assert (EI : items 0 (atk p) (fun x => at_val (xtr x) (xp x)) X =
                 items 0 (atk p) (fun x => nth_error (vals (xtr x) (xp x)) (pl g (vals (xtr x) (xp x)))) X).
    { clear -Hv. generalize 0 as n. induction X as [|x X IH]; intros n; simpl; auto.
      destruct (atk p x) eqn:E; [|apply IH; intros; apply Hv; simpl; auto].
      rewrite at_val_vals. rewrite (Hv x) by (simpl; auto). rewrite E. f_equal. apply IH. intros; apply Hv; simpl; auto. }
    rewrite EI, HM; clear HM EI.
    + apply sel_ext. intros x Hx. unfold atv. destruct (atk p x) eqn:E; auto. simpl. rewrite !at_val_vals, (po_vp _ _ _ _ HP).
      rewrite (Hv x Hx), E. reflexivity.
    + intros x Hx _. apply vals_sorted; auto.
    + intros a. rewrite (vals_U p k Hk), in_sort_set, in_flat_map. split.
      * intros (tr & Ht & Ha). rewrite <- (po_trs _ _ _ _ HP) in Ht. apply in_map_iff in Ht as (x & <- & Hx).
        assert (Hin : In k (keys (xtr x))). { apply in_map_iff in Ha as (y & _ & Ha). eapply in_vals_under; eauto. }
        apply (atk_in _ _ _ _ x k HP Hx Hk) in Hin. exists x. split; auto. split; auto.
        unfold atk in Hin. rewrite Hk in Hin. apply o_is_spec in Hin as (k' & E1 & E2). inversion E1; subst k'.
        rewrite (vals_at x k (HG x Hx) E2). auto.
      * intros (x & Hx & Ht & Ha). exists (xtr x). split; [rewrite <- (po_trs _ _ _ _ HP); apply in_map; auto|].
        unfold atk in Ht. rewrite Hk in Ht. apply o_is_spec in Ht as (k' & E1 & E2). inversion E1; subst k'.
        rewrite <- (vals_at x k (HG x Hx) E2). auto.
  - assert (E : forall n, items n (atk p) (fun x => at_val (xtr x) (xp x)) X = []).
    { unfold atk. rewrite Hk. simpl. clear. induction X; intros n; simpl; auto. }
    rewrite E. unfold minimize. simpl. unfold atv, atk. rewrite Hk. simpl. clear. generalize 0 as n. induction X; intros n; simpl; auto.
Qed.

Lemma at_key_vp0 tr n m : at_key tr {| kp := n; vp := m |} = nth_error (keys tr) n.
Proof. apply at_key_keys. Qed.

Lemma finish_keys X f cl : map xst X = sts -> map xtr X = trs -> Forall good X -> dc f ->
  Forall (fun x => xp x = {| kp := pl f (keys (xtr x)); vp := 0 |}) X -> cl_cursors cl = map xc X ->
  exists cl', cl_minimize_keys ops sts cl = Some cl' /\ Rel cl' {| kp := pl f (keys U); vp := 0 |}.
Proof.
  intros E1 E2 HG Hd Hp Ec. unfold cl_minimize_keys.
  set (q := {| kp := pl f (keys U); vp := 0 |}).
  assert (HP : Pos X f (fun _ => false) q).
  { constructor; auto.
    - intros x y _ H; discriminate.
    - eapply Forall_impl; [|exact Hp]. intros x ->. reflexivity.
    - simpl. destruct (vals U q); reflexivity.
    - eapply Forall_impl; [|exact Hp]. intros x ->. simpl. destruct (atk _ _); auto. destruct (vals _ _); reflexivity. }
  rewrite Ec.
  assert (EM : forall Y n, (forall j x, nth_error Y j = Some x -> nth_error sts (n + j) = Some (xst x) /\ good x) ->
    mapM (fun ic => st <- get sts (fst ic); k <- c_get_key ops st (snd ic); Some (fst ic, k)) (combine (seq n (length (map xc Y))) (map xc Y)) =
    Some (items n (fun _ => true) (fun x => at_key (xtr x) (xp x)) Y)).
  { induction Y as [|y Y IH]; intros n H; simpl; auto. destruct (H 0 y eq_refl) as [H1 H2]. unfold get. rewrite Nat.add_0_r in H1. rewrite H1.
    rewrite (good_get_key y H2). unfold get in IH. rewrite (IH (S n)); auto. intros j x Hj. destruct (H (S j) x Hj) as [H3 H4].
    split; auto. rewrite <- H3. f_equal. lia. }
  rewrite (EM X 0).
  2:{ intros j x Hj. simpl. rewrite <- E1, nth_error_map, Hj. split; auto. rewrite Forall_forall in HG. apply HG. eapply nth_error_In; eauto. }
  apply (finish_vals X f (fun _ => false) q); auto. simpl.
  pose proof (minimize_union 0 (fun _ : comp => true) X (fun x => keys (xtr x)) (keys U) f Hd keys_U_sorted) as HM. cbv zeta in HM.
  assert (EI : items 0 (fun _ => true) (fun x => at_key (xtr x) (xp x)) X =
               items 0 (fun _ => true) (fun x => nth_error (keys (xtr x)) (pl f (keys (xtr x)))) X).
  { clear -Hp. rewrite Forall_forall in Hp. generalize 0 as n. induction X as [|x X IH]; intros n; simpl; auto.
    rewrite at_key_keys. rewrite (Hp x) at 1 by (simpl; auto). simpl. f_equal. apply IH. intros; apply Hp; simpl; auto. }
  rewrite EI, HM.
  - apply sel_ext. intros x Hx. simpl. unfold atk. rewrite Forall_forall in Hp. rewrite (Hp x Hx). unfold q. rewrite !at_key_vp0. reflexivity.
  - intros x Hx _. rewrite Forall_forall in HG. apply (HG x Hx).
  - intros a. rewrite in_keys_U. rewrite <- E2. split.
    + intros (tr & Ht & Ha). apply in_map_iff in Ht as (x & <- & Hx). exists x; auto.
    + intros (x & Hx & _ & Ha). exists (xtr x). split; auto. apply in_map; auto.
Qed.

(** Values: the same for the value position. *)
Lemma in_vals_U X f g p k x a : Pos X f g p -> at_key U p = Some k -> In x X -> atk p x = true -> In a (vals (xtr x) (xp x)) -> In a (vals U p).
Proof.
  intros HP Hk Hx Ha Hin. rewrite (vals_U p k Hk), in_sort_set, in_flat_map. exists (xtr x).
  split; [rewrite <- (po_trs _ _ _ _ HP); apply in_map; auto|]. pose proof (po_good _ _ _ _ HP) as HG. rewrite Forall_forall in HG.
  unfold atk in Ha. rewrite Hk in Ha. apply o_is_spec in Ha as (k' & E1 & E2). inversion E1; subst k'.
  rewrite <- (vals_at x k (HG x Hx) E2). auto.
Qed.
Lemma vals_U_in X f g p k a : Pos X f g p -> at_key U p = Some k -> In a (vals U p) -> exists x, In x X /\ atk p x = true /\ In a (vals (xtr x) (xp x)).
Proof.
  intros HP Hk Hin. pose proof (po_good _ _ _ _ HP) as HG. rewrite Forall_forall in HG.
  rewrite (vals_U p k Hk), in_sort_set, in_flat_map in Hin. destruct Hin as (tr & Ht & Ha).
  rewrite <- (po_trs _ _ _ _ HP) in Ht. apply in_map_iff in Ht as (x & <- & Hx).
  assert (Hin : In k (keys (xtr x))). { apply in_map_iff in Ha as (y & _ & Ha). eapply in_vals_under; eauto. }
  apply (atk_in _ _ _ _ x k HP Hx Hk) in Hin. exists x. split; auto. split; auto.
  unfold atk in Hin. rewrite Hk in Hin. apply o_is_spec in Hin as (k' & E1 & E2). inversion E1; subst k'.
  rewrite (vals_at x k (HG x Hx) E2). auto.
Qed.
Lemma atv_in X f g p x k v : Pos X f g p -> In x X -> at_key U p = Some k -> at_val U p = Some v -> atk p x = true ->
  (atv p x = true <-> In v (vals (xtr x) (xp x))).
Proof.
  intros HP Hx Hk Hv Ha. unfold atv. rewrite Ha, Hv. cbn [andb]. rewrite o_is_spec.
  pose proof (po_vpi _ _ _ _ HP) as Hi. rewrite Forall_forall in Hi. specialize (Hi x Hx). rewrite Ha in Hi.
  pose proof (po_good _ _ _ _ HP) as Hg. rewrite Forall_forall in Hg. pose proof (vals_sorted x (Hg x Hx)) as Hs.
  rewrite at_val_vals, (po_vp _ _ _ _ HP) in Hv. split.
  - intros (a & Ea & Eb). inversion Ea; subst a. rewrite at_val_vals in Eb. eapply nth_error_In; eauto.
  - intros Hin. exists v. split; auto. rewrite at_val_vals, Hi.
    destruct (pl_in g (vals (xtr x) (xp x)) v Hs (po_g _ _ _ _ HP) Hin) as (y & Ey & Hy); [eapply pl_at; eauto|].
    rewrite Ey. f_equal. apply le_antisym; auto.
    destruct (pl_in g (vals U p) y (vals_U_sorted p) (po_g _ _ _ _ HP)) as (z & Ez & Hz).
    + eapply in_vals_U; eauto. eapply nth_error_In; eauto.
    + eapply pl_at; eauto.
    + rewrite Hv in Ez. inversion Ez; subst; auto.
Qed.

(** ** Observations *)
Lemma sel_nil {Y} (P : Y -> bool) l : forall n, sel n P l = [] <-> forall x, In x l -> P x = false.
Proof.
  induction l as [|x l IH]; intros n; simpl; [tauto|]. destruct (P x) eqn:E.
  - split; [discriminate|]. intros H. rewrite (H x) in E by auto. discriminate.
  - rewrite IH. split; [intros H y [<-|Hy]; auto|intros H y Hy; auto].
Qed.
Lemma sel_head {Y} (P : Y -> bool) l : forall n i is, sel n P l = i :: is -> exists j x, i = n + j /\ nth_error l j = Some x /\ P x = true.
Proof.
  induction l as [|x l IH]; intros n i is; simpl; [discriminate|]. destruct (P x) eqn:E.
  - intros H; inversion H; subst. exists 0, x. split; [lia|auto].
  - intros H. apply IH in H as (j & y & -> & H1 & H2). exists (S j), y. split; [lia|auto].
Qed.

Lemma assoc_at {A B} {OA : Ord A} (l : list (A * list B)) n a s : strictly_sorted (map fst l) -> nth_error l n = Some (a, s) ->
  flat_map (fun e => if eqb (fst e) a then snd e else []) l = s.
Proof.
  revert n; induction l as [|[k1 vs1] tr IH]; intros n Hs E; [destruct n; discriminate|]. simpl in Hs. apply strictly_sorted_cons_inv in Hs as [Hs Hf].
  rewrite Forall_forall in Hf. destruct n as [|n]; simpl in E |- *.
  - inversion E; subst. rewrite eqb_refl. replace (flat_map _ tr) with (@nil B); [apply app_nil_r|].
    clear -Hf. induction tr as [|[k1 v1] tr IH]; simpl; auto. rewrite <- IH by (intros; apply Hf; simpl; auto).
    rewrite app_nil_r. rewrite (proj2 (eqb_neq k1 a)); auto. intros ->. apply (lt_irrefl a). apply Hf. simpl; auto.
  - rewrite (proj2 (eqb_neq k1 a)); [simpl; apply (IH n); auto|]. intros ->. apply (lt_irrefl a). apply Hf.
    apply in_map_iff. exists (a, s); split; auto. eapply nth_error_In; eauto.
Qed.
Lemma assoc_none {A B} {OA : Ord A} (l : list (A * list B)) a : ~ In a (map fst l) ->
  flat_map (fun e => if eqb (fst e) a then snd e else []) l = [].
Proof.
  induction l as [|[k1 v1] tr IH]; simpl; auto. intros H. rewrite IH by tauto. rewrite app_nil_r.
  rewrite (proj2 (eqb_neq k1 a)); auto.
Qed.

Lemma rel_observe cl p : Rel cl p -> c_observe (cl_ops ops) sts cl = Some (observation U p).
Proof.
  intros (X & f & g & HP & Ec & Ek & Ev). pose proof (po_good _ _ _ _ HP) as HG. rewrite Forall_forall in HG.
  unfold c_observe, observation. cbn [cl_ops c_get_key c_key_valid c_key c_get_val c_val_valid c_val c_map_times].
  assert (IDX : forall j x B (F : St -> C -> option B), nth_error X j = Some x -> cl_index sts cl j F = F (xst x) (xc x)).
  { intros j x B F Hj. unfold cl_index, get. rewrite Ec, <- (po_sts _ _ _ _ HP), !nth_error_map, Hj. reflexivity. }
  destruct (at_key U p) as [k|] eqn:Hk.
  - destruct (cl_min_key cl) as [|i is] eqn:Em.
    { exfalso. symmetry in Ek. rewrite sel_nil in Ek.
      assert (Hin : In k (keys U)). { rewrite at_key_keys in Hk. eapply nth_error_In; eauto. }
      apply in_keys_U in Hin as (tr & Ht & Hin). rewrite <- (po_trs _ _ _ _ HP) in Ht. apply in_map_iff in Ht as (x & <- & Hx).
      apply (atk_in _ _ _ _ x k HP Hx Hk) in Hin. rewrite (Ek x Hx) in Hin. discriminate. }
    symmetry in Ek. apply sel_head in Ek as (j & x & -> & Hj & Ha). simpl (0 + j).
    change (get (j :: is) 0) with (Some j). cbn [is_nil negb]. rewrite !(IDX _ _ _ _ Hj).
    unfold atk in Ha. rewrite Hk in Ha. apply o_is_spec in Ha as (k' & E1 & E2). inversion E1; subst k'.
    destruct (good_at_key x k (HG x (nth_error_In _ _ Hj)) E2) as (G1 & _ & _). rewrite G1, eqb_refl. cbn [andb].
    clear x Hj E2 G1 E1. clear j Em. destruct (at_val U p) as [v|] eqn:Hv.
    + destruct (cl_min_val cl) as [|i' is'] eqn:Emv.
      { exfalso. symmetry in Ev. rewrite sel_nil in Ev.
        assert (Hin : In v (vals U p)). { rewrite at_val_vals in Hv. eapply nth_error_In; eauto. }
        destruct (vals_U_in _ _ _ _ _ _ HP Hk Hin) as (x & Hx & Ha & Hin').
        apply (atv_in _ _ _ _ _ _ _ HP Hx Hk Hv Ha) in Hin'. rewrite (Ev x Hx) in Hin'. discriminate. }
      pose proof Ev as Ev'. symmetry in Ev. apply sel_head in Ev as (j & x & -> & Hj & Ha). simpl (0 + j).
      change (get (j :: is') 0) with (Some j). cbn [is_nil negb]. rewrite !(IDX _ _ _ _ Hj).
      unfold atv in Ha. apply andb_true_iff in Ha as [Ha Hb]. unfold atk in Ha. rewrite Hk in Ha.
      apply o_is_spec in Ha as (k' & E1 & E2). inversion E1; subst k'.
      rewrite Hv in Hb. apply o_is_spec in Hb as (v' & F1 & F2). inversion F1; subst v'.
      destruct (good_at_key x k (HG x (nth_error_In _ _ Hj)) E2) as (_ & _ & G3). destruct (G3 v F2) as [G4 _]. rewrite G4.
      simpl (0 + j) in Ev'. rewrite Ev'.
      rewrite (mapM_sel _ (fun x => at_times (xtr x) (xp x)) (atv p) X 0).
      2:{ intros j' x' Hj' Ha'. simpl. rewrite (IDX _ _ _ _ Hj'). unfold atv in Ha'. apply andb_true_iff in Ha' as [Ha' Hb'].
          unfold atk in Ha'. rewrite Hk in Ha'. apply o_is_spec in Ha' as (k' & A1 & A2). inversion A1; subst k'.
          rewrite Hv in Hb'. apply o_is_spec in Hb' as (v' & B1 & B2). inversion B1; subst v'.
          destruct (good_at_key x' k (HG x' (nth_error_In _ _ Hj')) A2) as (_ & _ & C3). apply (C3 v B2). }
      rewrite eqb_refl. simpl. f_equal. f_equal. f_equal. f_equal. f_equal.
      assert (ET : at_times U p = flat_map (fun tr => times_under tr k v) trs).
      { unfold at_times, at_val in *. rewrite (cur_vals_U p k Hk) in *. rewrite nth_error_map in *.
        destruct (nth_error (sort_set _) _); simpl in *; [|discriminate]. inversion Hv; subst; auto. }
      rewrite ET, <- (po_trs _ _ _ _ HP). rewrite (flat_map_concat_map _ (map xtr X)), map_map.
      assert (HX : forall x', In x' X -> times_under (xtr x') k v = if atv p x' then at_times (xtr x') (xp x') else []).
      { intros x' Hx'. unfold times_under. destruct (atk p x') eqn:Ea.
        - pose proof (atv_in _ _ _ _ _ _ _ HP Hx' Hk Hv Ea) as HI.
          pose proof Ea as Ea'. unfold atk in Ea'. rewrite Hk in Ea'. apply o_is_spec in Ea' as (k' & A1 & A2). inversion A1; subst k'.
          destruct (HG x' Hx') as ((Hs & Hs2) & _). rewrite (vals_under_at _ _ _ Hs A2).
          pose proof (vals_sorted x' (HG x' Hx')) as Hs3.
          destruct (atv p x') eqn:Eb.
          + unfold atv in Eb. rewrite Ea, Hv in Eb. cbn [andb] in Eb. apply o_is_spec in Eb as (v' & B1 & B2). inversion B1; subst v'.
            unfold at_val in B2. unfold at_times. destruct (nth_error (cur_vals (xtr x') (xp x')) (vp (xp x'))) as [[v' l]|] eqn:En; [|discriminate].
            simpl in B2. inversion B2; subst v'. eapply assoc_at; eauto.
          + apply assoc_none. intros Hin. apply HI in Hin. discriminate.
        - assert (Eb : atv p x' = false) by (unfold atv; rewrite Ea; auto). rewrite Eb.
          rewrite (vals_under_none); auto. intros Hin. apply (atk_in _ _ _ _ x' k HP Hx' Hk) in Hin. congruence. }
      clear -HX. induction X as [|x X IH]; simpl; auto. rewrite (HX x) by (simpl; auto). destruct (atv p x); simpl; [f_equal|]; apply IH; intros; apply HX; simpl; auto.
    + assert (Em' : cl_min_val cl = []).
      { rewrite Ev. apply sel_nil. intros x Hx. unfold atv. rewrite Hv. apply andb_false_r. }
      rewrite Em'. reflexivity.
  - assert (Em : cl_min_key cl = []).
    { rewrite Ek. apply sel_nil. intros x Hx. unfold atk. rewrite Hk. reflexivity. }
    rewrite Em. reflexivity.
Qed.

(** ** Navigation *)
Lemma moved_sts op P X Y : Forall2 (moved op P) X Y -> map xst Y = map xst X.
Proof. apply Forall2_map_eq. intros x y (H & _); auto. Qed.
Lemma moved_trs op P X Y : Forall2 (moved op P) X Y -> map xtr Y = map xtr X.
Proof. apply Forall2_map_eq. intros x y (_ & H & _); auto. Qed.
Lemma moved_good op P X Y : Forall2 (moved op P) X Y -> Forall good Y.
Proof. induction 1 as [|x y X Y (_ & _ & H & _)]; constructor; auto. Qed.
Lemma moved_Forall op P (Q : comp -> Prop) X Y : Forall2 (moved op P) X Y -> (forall x y, In x X -> moved op P x y -> Q y) -> Forall Q Y.
Proof. induction 1 as [|x y X Y H _ IH]; intros HQ; constructor; [eapply HQ; simpl; eauto|]. apply IH. intros; eapply HQ; simpl; eauto. Qed.

Lemma skipn_fst {A B} n (l : list (A * B)) : skipn n (map fst l) = map fst (skipn n l).
Proof. revert l; induction n; intros [|x l]; simpl; auto. Qed.

Lemma finish_key_nav X f g p cl op P Y f' : Pos X f g p -> cl_cursors cl = map xc X -> Forall2 (moved op P) X Y ->
  dc f' -> Forall (fun x => xp x = {| kp := pl f' (keys (xtr x)); vp := 0 |}) Y -> move U p op = {| kp := pl f' (keys U); vp := 0 |} ->
  exists cl', cl_minimize_keys ops sts (cl_with cl (map xc Y)) = Some cl' /\ Rel cl' (move U p op).
Proof.
  intros HP Ec HY Hd Hp ->. apply (finish_keys Y f'); auto.
  - rewrite (moved_sts _ _ _ _ HY). apply HP.
  - rewrite (moved_trs _ _ _ _ HY). apply HP.
  - eapply moved_good; eauto.
Qed.

Lemma finish_val_nav X f g p cl op P Y g' : Pos X f g p -> cl_cursors cl = map xc X -> cl_min_key cl = sel 0 (atk p) X ->
  Forall2 (moved op P) X Y -> (forall x y, In x X -> moved op P x y -> kp (xp y) = kp (xp x)) ->
  kp (move U p op) = kp p -> dc g' -> vp (move U p op) = pl g' (vals U p) ->
  (forall x y, In x X -> moved op P x y -> vp (xp y) = if atk p x then pl g' (vals (xtr x) (xp x)) else 0) ->
  exists cl', cl_minimize_vals ops sts (cl_with cl (map xc Y)) = Some cl' /\ Rel cl' (move U p op).
Proof.
  intros HP Ec Ek HY Hkp Hmk Hd Hmv Hv.
  assert (HAK : forall tr q1 q2, kp q1 = kp q2 -> at_key tr q1 = at_key tr q2) by (intros tr q1 q2 H; unfold at_key; rewrite H; auto).
  assert (HVL : forall tr q1 q2, kp q1 = kp q2 -> vals tr q1 = vals tr q2) by (intros tr q1 q2 H; unfold vals, cur_vals; rewrite H; auto).
  assert (HA : forall x y, In x X -> moved op P x y -> atk (move U p op) y = atk p x).
  { intros x y Hx Hm. unfold atk. rewrite (HAK U _ _ Hmk). pose proof (Hkp x y Hx Hm) as E1. destruct Hm as (_ & E & _).
    rewrite E. rewrite (HAK _ (xp y) (xp x)); auto. }
  apply (finish_vals Y f g'); auto.
  - constructor.
    + rewrite (moved_sts _ _ _ _ HY). apply HP.
    + rewrite (moved_trs _ _ _ _ HY). apply HP.
    + eapply moved_good; eauto.
    + apply HP.
    + auto.
    + rewrite Hmk. apply HP.
    + eapply moved_Forall; eauto. intros x y Hx Hm. rewrite (Hkp x y Hx Hm). destruct Hm as (_ & E & _). rewrite E.
      pose proof (po_kpi _ _ _ _ HP) as H. rewrite Forall_forall in H. auto.
    + rewrite Hmv. f_equal. apply HVL. auto.
    + eapply moved_Forall; eauto. intros x y Hx Hm. rewrite (HA x y Hx Hm), (Hv x y Hx Hm). destruct (atk p x); auto.
      pose proof (Hkp x y Hx Hm) as E1. destruct Hm as (_ & E & _). rewrite E. f_equal. apply HVL. auto.
  - simpl. rewrite Ek. clear -HA HY. generalize 0 as n. induction HY as [|x y X Y H _ IH]; intros n; simpl; auto.
    rewrite (HA x y) by (simpl; auto). rewrite IH by (intros; apply HA; simpl; auto). reflexivity.
Qed.

Lemma rel_nav cl p op : Rel cl p -> legal U p op -> shared_seeks trs p op -> exists cl', c_nav (cl_ops ops) sts cl op = Some cl' /\ Rel cl' (move U p op).
Proof.
  intros (X & f & g & HP & Ec & Ek & Ev) HL HA. pose proof (po_good _ _ _ _ HP) as HG.
  pose proof (po_sts _ _ _ _ HP) as Hst. pose proof (po_kpi _ _ _ _ HP) as Hkpi. pose proof (po_vpi _ _ _ _ HP) as Hvpi.
  rewrite Forall_forall in Hkpi, Hvpi. pose proof HG as HG'. rewrite Forall_forall in HG'.
  destruct op as [|k'| |v'| |]; cbn [c_nav cl_ops c_step_key c_seek_key c_step_val c_seek_val c_rewind_keys c_rewind_vals].
  - (* StepKey *)
    destruct (move_exists StepKey (atk p) X HG) as [Y HY]; [apply Forall_forall; intros; exact I|].
    pose proof (cl_apply_sel StepKey (atk p) X Y HY [] [] eq_refl) as EA. simpl in EA. rewrite Ek, Ec. rewrite Hst in EA.
    change (fun st c => c_step_key ops st c) with (c_step_key ops) in EA. rewrite EA.
    destruct (at_key U p) as [k|] eqn:Hk.
    + assert (Hfk : f k = false). { rewrite at_key_keys, (po_kp _ _ _ _ HP) in Hk. eapply pl_at; eauto. }
      apply (finish_key_nav X f g p cl StepKey (atk p) Y (fun x => leb x k) HP Ec HY (dc_leb k)).
      * eapply moved_Forall; [exact HY|]. intros x y Hx (E1 & E2 & _ & Hm). destruct (atk p x) eqn:Ea.
        -- destruct Hm as [Hm _]. rewrite Hm, E2. unfold move. unfold atk in Ea. rewrite Hk in Ea.
           apply o_is_spec in Ea as (k2 & A1 & A2). inversion A1; subst k2. rewrite at_key_keys, (Hkpi x Hx) in A2.
           rewrite (pl_step f (keys (xtr x)) k (po_f _ _ _ _ HP) Hfk) by (auto; apply (HG' x Hx)). f_equal.
           rewrite (Hkpi x Hx). assert (pl f (keys (xtr x)) < length (keys (xtr x))) by (apply nth_error_Some; congruence).
           unfold keys in H at 2. rewrite map_length in H. lia.
        -- subst y. rewrite (pl_stay f (keys (xtr x)) k (po_f _ _ _ _ HP) Hfk).
           2:{ intros y Hy. destruct (pl_in f (keys U) y keys_U_sorted (po_f _ _ _ _ HP)) as (z & Ez & Hz).
               - apply in_keys_U. exists (xtr x). split; [rewrite <- (po_trs _ _ _ _ HP); apply in_map; auto|]. eapply nth_error_In; eauto.
               - eapply pl_at; eauto.
               - rewrite at_key_keys, (po_kp _ _ _ _ HP), Ez in Hk. inversion Hk; subst z. apply le_lteq in Hz as [Hz|<-]; auto.
                 exfalso. unfold atk in Ea. rewrite at_key_keys, (po_kp _ _ _ _ HP), Ez, at_key_keys, (Hkpi x Hx), Hy in Ea.
                 simpl in Ea. rewrite eqb_refl in Ea. discriminate. }
           pose proof (Hvpi x Hx) as Hv. rewrite Ea in Hv. rewrite <- (Hkpi x Hx). destruct (xp x); simpl in *. subst; auto.
      * unfold move. f_equal. rewrite at_key_keys, (po_kp _ _ _ _ HP) in Hk.
        rewrite (pl_step f (keys U) k (po_f _ _ _ _ HP) Hfk keys_U_sorted Hk), (po_kp _ _ _ _ HP).
        assert (pl f (keys U) < length (keys U)) by (apply nth_error_Some; congruence). unfold keys in H at 2. rewrite map_length in H. lia.
    + apply (finish_key_nav X f g p cl StepKey (atk p) Y f HP Ec HY (po_f _ _ _ _ HP)).
      * eapply moved_Forall; [exact HY|]. intros x y Hx (E1 & E2 & _ & Hm).
        assert (Ea : atk p x = false) by (unfold atk; rewrite Hk; auto). rewrite Ea in Hm. subst y.
        pose proof (Hvpi x Hx) as Hv. rewrite Ea in Hv. rewrite <- (Hkpi x Hx). destruct (xp x); simpl in *. subst; auto.
      * unfold move. f_equal. rewrite at_key_keys, (po_kp _ _ _ _ HP) in Hk. apply nth_error_None in Hk.
        pose proof (pl_le f (keys U)). pose proof (po_kp _ _ _ _ HP). unfold keys in *. rewrite map_length in *. lia.
  - (* SeekKey *)
    destruct (move_exists (SeekKey k') (fun _ => true) X HG) as [Y HY]; [apply Forall_forall; intros; exact I|].
    pose proof (cl_apply_every (SeekKey k') X Y HY) as EA. simpl in EA. rewrite Ec. rewrite Hst in EA. rewrite EA.
    apply (finish_key_nav X f g p cl (SeekKey k') (fun _ => true) Y (fun x => f x || ltb x k') HP Ec HY (dc_or f k' (po_f _ _ _ _ HP))).
    + eapply moved_Forall; [exact HY|]. intros x y Hx (E1 & E2 & _ & Hm & _). rewrite Hm, E2. unfold move. f_equal.
      rewrite (pl_seek f (keys (xtr x)) k' (po_f _ _ _ _ HP)) by (apply (HG' x Hx)). rewrite (Hkpi x Hx). f_equal.
      unfold keys. rewrite skipn_fst. symmetry; rewrite <- pl_fst; reflexivity.
    + unfold move. f_equal. rewrite (pl_seek f (keys U) k' (po_f _ _ _ _ HP) keys_U_sorted). rewrite (po_kp _ _ _ _ HP). f_equal.
      unfold keys at 3. rewrite skipn_fst. rewrite <- pl_fst. reflexivity.
  - (* StepVal *)
    assert (Hatk : forall x, In x X -> atv p x = true -> at_key (xtr x) (xp x) <> None).
    { intros x Hx Ha. unfold atv in Ha. apply andb_true_iff in Ha as [Ha _]. unfold atk in Ha. apply o_is_spec in Ha as (? & _ & E). congruence. }
    destruct (move_exists StepVal (atv p) X HG) as [Y HY]; [apply Forall_forall; intros x Hx Ha; apply (Hatk x Hx Ha)|].
    pose proof (cl_apply_sel StepVal (atv p) X Y HY [] [] eq_refl) as EA. simpl in EA. rewrite Ev, Ec. rewrite Hst in EA.
    change (fun st c => c_step_val ops st c) with (c_step_val ops) in EA. rewrite EA.
    simpl in HL. destruct (at_key U p) as [k|] eqn:Hk; [|contradiction HL; auto].
    assert (Hlen : forall x, length (cur_vals (xtr x) (xp x)) = length (vals (xtr x) (xp x))) by (intros; unfold vals; rewrite map_length; auto).
    assert (HlenU : length (cur_vals U p) = length (vals U p)) by (unfold vals; rewrite map_length; auto).
    destruct (at_val U p) as [v|] eqn:Hv.
    + assert (Hgv : g v = false). { rewrite at_val_vals, (po_vp _ _ _ _ HP) in Hv. eapply pl_at; eauto. }
      apply (finish_val_nav X f g p cl StepVal (atv p) Y (fun x => leb x v)); auto; [|apply dc_leb| |].
      * intros x y Hx (_ & _ & _ & Hm). destruct (atv p x); [destruct Hm as [-> _]; reflexivity|subst; auto].
      * unfold move; cbn [vp]. pose proof Hv as Hv'. rewrite at_val_vals, (po_vp _ _ _ _ HP) in Hv'.
        rewrite (pl_step g (vals U p) v (po_g _ _ _ _ HP) Hgv (vals_U_sorted p) Hv'), (po_vp _ _ _ _ HP), HlenU.
        assert (pl g (vals U p) < length (vals U p)) by (apply nth_error_Some; congruence). lia.
      * intros x y Hx (_ & _ & _ & Hm). pose proof (vals_sorted x (HG' x Hx)) as Hs. destruct (atv p x) eqn:Eb.
        -- destruct Hm as [-> _]. pose proof Eb as Eb'. unfold atv in Eb'. apply andb_true_iff in Eb' as [Ea Eb']. rewrite Ea.
           rewrite Hv in Eb'. apply o_is_spec in Eb' as (v2 & A1 & A2). inversion A1; subst v2.
           pose proof (Hvpi x Hx) as Hvx. rewrite Ea in Hvx. rewrite at_val_vals, Hvx in A2.
           rewrite (pl_step g _ v (po_g _ _ _ _ HP) Hgv Hs A2). unfold move; cbn [vp]. rewrite Hvx, Hlen.
           assert (pl g (vals (xtr x) (xp x)) < length (vals (xtr x) (xp x))) by (apply nth_error_Some; congruence). lia.
        -- subst y. pose proof (Hvpi x Hx) as Hvx. rewrite Hvx. destruct (atk p x) eqn:Ea; auto. symmetry.
           apply (pl_stay g _ v (po_g _ _ _ _ HP) Hgv). intros y Hy.
           destruct (pl_in g (vals U p) y (vals_U_sorted p) (po_g _ _ _ _ HP)) as (z & Ez & Hz).
           ++ eapply in_vals_U; eauto. eapply nth_error_In; eauto.
           ++ eapply pl_at; eauto.
           ++ rewrite at_val_vals, (po_vp _ _ _ _ HP), Ez in Hv. inversion Hv; subst z. apply le_lteq in Hz as [Hz|<-]; auto.
              exfalso. assert (Hin : In v (vals (xtr x) (xp x))) by (eapply nth_error_In; eauto).
              apply (atv_in _ _ _ _ _ _ _ HP Hx Hk) in Hin; auto; [congruence|]. rewrite at_val_vals, (po_vp _ _ _ _ HP); auto.
    + apply (finish_val_nav X f g p cl StepVal (atv p) Y g); auto; [|apply HP| |].
      * intros x y Hx (_ & _ & _ & Hm). destruct (atv p x); [destruct Hm as [-> _]; reflexivity|subst; auto].
      * unfold move; cbn [vp]. rewrite at_val_vals, (po_vp _ _ _ _ HP) in Hv. apply nth_error_None in Hv. pose proof (pl_le g (vals U p)).
        pose proof (po_vp _ _ _ _ HP). lia.
      * intros x y Hx (_ & _ & _ & Hm). assert (Eb : atv p x = false) by (unfold atv; rewrite Hv; apply andb_false_r). rewrite Eb in Hm. subst y. auto.
  - (* SeekVal *)
    simpl in HL. destruct (at_key U p) as [k|] eqn:Hk; [|contradiction HL; auto].
    assert (Hall : forall x, In x X -> atk p x = true).
    { intros x Hx. apply (atk_in _ _ _ _ x k HP Hx Hk). simpl in HA. destruct (HA (xtr x)) as (k2 & E1 & E2).
      - rewrite <- (po_trs _ _ _ _ HP). apply in_map; auto.
      - rewrite Hk in E1. inversion E1; subst; auto. }
    destruct (move_exists (SeekVal v') (fun _ => true) X HG) as [Y HY].
    { apply Forall_forall. intros x Hx _. simpl. specialize (Hall x Hx). unfold atk in Hall. apply o_is_spec in Hall as (? & _ & E). congruence. }
    pose proof (cl_apply_every (SeekVal v') X Y HY) as EA. simpl in EA. rewrite Ec. rewrite Hst in EA. rewrite EA.
    apply (finish_val_nav X f g p cl (SeekVal v') (fun _ => true) Y (fun x => g x || ltb x v')); auto; [| | |].
    + intros x y Hx (_ & _ & _ & -> & _); reflexivity.
    + apply dc_or, HP.
    + simpl. rewrite (pl_seek g (vals U p) v' (po_g _ _ _ _ HP) (vals_U_sorted p)). rewrite (po_vp _ _ _ _ HP). f_equal.
      unfold vals at 3. rewrite skipn_fst, <- pl_fst. reflexivity.
    + intros x y Hx (_ & _ & _ & -> & _). rewrite (Hall x Hx). simpl.
      rewrite (pl_seek g _ v' (po_g _ _ _ _ HP) (vals_sorted x (HG' x Hx))). pose proof (Hvpi x Hx) as Hvx. rewrite (Hall x Hx) in Hvx. rewrite Hvx. f_equal.
      unfold vals at 3. rewrite skipn_fst, <- pl_fst. reflexivity.
  - (* RewindKeys *)
    destruct (move_exists RewindKeys (fun _ => true) X HG) as [Y HY]; [apply Forall_forall; intros; exact I|].
    pose proof (cl_apply_every RewindKeys X Y HY) as EA. simpl in EA. rewrite Ec. rewrite Hst in EA.
    change (fun st c => c_rewind_keys ops st c) with (c_rewind_keys ops) in EA. rewrite EA.
    apply (finish_key_nav X f g p cl RewindKeys (fun _ => true) Y (fun _ => false) HP Ec HY).
    + intros x y _ H; discriminate.
    + eapply moved_Forall; [exact HY|]. intros x y Hx (E1 & E2 & _ & Hm & _). rewrite Hm. unfold move, start. f_equal. destruct (keys (xtr y)); auto.
    + unfold move, start. f_equal. destruct (keys U); auto.
  - (* RewindVals *)
    destruct (move_exists RewindVals (atk p) X HG) as [Y HY].
    { apply Forall_forall. intros x Hx Ha. simpl. unfold atk in Ha. apply o_is_spec in Ha as (? & _ & E). congruence. }
    pose proof (cl_apply_sel RewindVals (atk p) X Y HY [] [] eq_refl) as EA. simpl in EA. rewrite Ek, Ec. rewrite Hst in EA.
    change (fun st c => c_rewind_vals ops st c) with (c_rewind_vals ops) in EA. rewrite EA.
    apply (finish_val_nav X f g p cl RewindVals (atk p) Y (fun _ => false)); auto; [| | |].
    + intros x y Hx (_ & _ & _ & Hm). destruct (atk p x); [destruct Hm as [-> _]; reflexivity|subst; auto].
    + intros x y _ H; discriminate.
    + simpl. destruct (vals U p); auto.
    + intros x y Hx (_ & _ & _ & Hm). destruct (atk p x) eqn:Ea.
      * destruct Hm as [-> _]. simpl. destruct (vals _ _); auto.
      * subst y. rewrite (Hvpi x Hx), Ea. auto.
Qed.
End Fixed.

(** ** The result *)
Theorem cl_presents (srcs : list (St * C * trie K V T R)) :
  Forall (fun s => tsorted (snd s) /\ presents ops (fst (fst s)) (snd (fst s)) (snd s)) srcs ->
  let sts := map (fun s => fst (fst s)) srcs in let trs := map snd srcs in
  exists cl0, cl_new ops (map (fun s => snd (fst s)) srcs) sts = Some cl0 /\
    presents_if (shared_seeks trs) (cl_ops ops) sts cl0 (union_trie trs).
Proof.
  intros H sts trs.
  set (X := map (fun s => {| xst := fst (fst s); xc := snd (fst s); xtr := snd s; xp := start |}) srcs).
  assert (E1 : map xst X = sts) by (unfold X; rewrite map_map; reflexivity).
  assert (E2 : map xtr X = trs) by (unfold X; rewrite map_map; reflexivity).
  assert (E3 : map xc X = map (fun s => snd (fst s)) srcs) by (unfold X; rewrite map_map; reflexivity).
  assert (HG : Forall good X).
  { unfold X. rewrite Forall_map. eapply Forall_impl; [|exact H]. intros s [H1 H2]. split; auto. exists (snd (fst s)). split; auto. apply reached_start. }
  unfold cl_new.
  destruct (finish_keys sts trs X (fun _ => false) {| cl_cursors := map (fun s => snd (fst s)) srcs; cl_min_key := []; cl_min_val := [] |})
    as (cl0 & E & HR); auto.
  - intros x y _ Hf; discriminate.
  - unfold X. rewrite Forall_map. apply Forall_forall. intros s _. simpl. unfold start. f_equal. destruct (keys (snd s)); auto.
  - exists cl0. split; auto. replace {| kp := prefix_len (fun _ => false) (keys (union_trie trs)); vp := 0 |} with start in HR.
    2:{ unfold start. f_equal. destruct (keys (union_trie trs)); auto. }
    intros navs p Hl. clear E. revert cl0 HR Hl. generalize start as q.
    induction navs as [|op navs IH]; intros q cl0 HR Hl; inversion Hl as [|? ? ? ? Hleg Hok Hl']; subst; simpl.
    + exists cl0. split; auto. eapply rel_observe; eauto.
    + destruct (rel_nav sts trs cl0 q op HR Hleg Hok) as (cl' & En & HR'). rewrite En.
      apply (IH (move (union_trie trs) q op) cl'); auto.
Qed.
End Merged.

(** The union holds all updates of the sources. *)
Section UnionWeights.
Context {K V T R : Type} {OK : Ord K} {OV : Ord V} {OT : Ord T} {DR : Diff R}.
Implicit Types (tr : trie K V T R).

Lemma weight_flat tr k v t : weight (flat tr) (k, v, t) = weight (times_under tr k v) t.
Proof.
  unfold times_under, vals_under, flat.
  induction tr as [|[k1 vs] tr IH]; simpl; auto. rewrite flat_map_app, !weight_app, IH. f_equal. clear IH.
  destruct (eqb_spec k1 k) as [->|Hk].
  - induction vs as [|[v1 l] vs IH]; simpl; auto. rewrite !weight_app, IH. f_equal. clear IH. destruct (eqb_spec v1 v) as [->|Hv].
    + induction l as [|[t1 r] l IH]; simpl; auto. rewrite !weight_cons. simpl. rewrite IH.
      destruct (eqb_spec t1 t) as [->|Ht].
      * rewrite eqb_refl. reflexivity.
      * rewrite (proj2 (eqb_neq _ _)); auto. congruence.
    + induction l as [|[t1 r] l IH]; simpl; auto. rewrite weight_cons. simpl. rewrite (proj2 (eqb_neq _ _)); auto. congruence.
  - simpl. induction vs as [|[v1 l] vs IH]; simpl; auto. rewrite weight_app, IH. change (weight [] t) with (@dzero R _). rewrite dplus_0_r. clear IH.
    induction l as [|[t1 r] l IHl]; simpl; auto. rewrite weight_cons. simpl. rewrite (proj2 (eqb_neq _ _)); auto. congruence.
Qed.

Lemma times_under_union (trs : list (trie K V T R)) k v :
  times_under (union_trie trs) k v = flat_map (fun tr => times_under tr k v) trs.
Proof.
  assert (HN : ~ In k (keys (union_trie trs)) -> flat_map (fun tr => times_under tr k v) trs = []).
  { intros Hn. rewrite in_keys_U in Hn. induction trs as [|tr trs IH]; simpl; auto. rewrite IH.
    - rewrite app_nil_r. unfold times_under. rewrite vals_under_none; auto. intros H; apply Hn. exists tr; simpl; auto.
    - intros (tr' & H1 & H2). apply Hn. exists tr'; simpl; auto. }
  destruct (in_dec eq_dec k (keys (union_trie trs))) as [Hin|Hn].
  2:{ rewrite HN by auto. unfold times_under. rewrite vals_under_none; auto. }
  apply In_nth_error in Hin as [n Hn]. set (p := {| kp := n; vp := 0 |}).
  assert (Hk : at_key (union_trie trs) p = Some k) by (rewrite at_key_keys; exact Hn).
  unfold times_under at 1. rewrite (vals_under_at _ p k (keys_U_sorted trs) Hk).
  pose proof (vals_U_sorted trs p) as Hs. pose proof (vals_U trs p k Hk) as Ev. pose proof (cur_vals_U trs p k Hk) as Ec.
  destruct (in_dec eq_dec v (vals (union_trie trs) p)) as [Hv|Hv].
  - apply In_nth_error in Hv as [m Hm]. apply (assoc_at (cur_vals (union_trie trs) p) m v); auto.
    rewrite Ec, nth_error_map. rewrite Ev in Hm. rewrite Hm. reflexivity.
  - rewrite assoc_none by exact Hv. rewrite Ev, in_sort_set in Hv. clear -Hv.
    induction trs as [|tr trs IH]; simpl; auto. rewrite <- IH.
    + rewrite app_nil_r. symmetry. apply assoc_none. intros H. apply Hv. simpl. apply in_or_app; auto.
    + intros H. apply Hv. simpl. apply in_or_app; auto.
Qed.

Lemma union_trie_weights (trs : list (trie K V T R)) : same_weights (flat (union_trie trs)) (flat_map flat trs).
Proof.
  intros [[k v] t]. rewrite weight_flat, times_under_union. induction trs as [|tr trs IH]; simpl; auto.
  rewrite !weight_app, IH, weight_flat. reflexivity.
Qed.
End UnionWeights.
