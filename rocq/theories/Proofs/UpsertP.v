(** The arrangement made from upserts. *)
From Coq Require Import Sorting.Sorted.
From Verif Require Export Spec.UpsertSpec Proofs.ArrangeP Proofs.OwnP Proofs.ShowsP Proofs.ReadableP Proofs.ConsolidationP.
From Verif Require Import Proofs.TotalP Base.Collections Base.Order.

(** ** The values of one key *)
Section Values.
Context {K V T : Type} {OK : Ord K} {OV : Ord V} {TT : Time T}.
Definition ind (o : option V) (v : V) : Z := match o with Some v' => if eqb v' v then 1%Z else 0%Z | None => 0%Z end.
Definition timed (l : list (T * option V)) : Prop := strictly_sorted (map fst l).
(** the value as of a time, given one held before *)
Fixpoint cur (l : list (T * option V)) (p : option V) (t : T) : option V :=
  match l with [] => p | (s, o) :: l' => if tle s t then cur l' o t else p end.

Lemma cur_spec {TO : TotalTime T} l : timed l -> forall p t,
  (exists s, In (s, cur l p t) l /\ tle s t = true /\ forall s' o', In (s', o') l -> tle s' t = true -> le s' s) \/
  (cur l p t = p /\ forall s' o', In (s', o') l -> tle s' t = false).
Proof.
  induction l as [|[s o] l IH]; intros HS p t; [right; split; [auto|intros s' o' []]|]. apply strictly_sorted_cons_inv in HS as [HS HF]. cbn [cur].
  rewrite Forall_forall in HF. destruct (tle s t) eqn:Es.
  - left. destruct (IH HS o t) as [(s1 & H1 & H2 & H3)|[-> H]].
    + exists s1. split; [right; auto|split; [auto|]]. intros s' o' [E|Hi] Hle; [inversion E; subst|eapply H3; eauto]. apply lt_le, HF. change s1 with (fst (s1, cur l o' t)). apply in_map; auto.
    + exists s. split; [left; auto|split; [auto|]]. intros s' o' [E|Hi] Hle; [inversion E; subst; apply le_refl|]. rewrite (H _ _ Hi) in Hle. discriminate.
  - right. split; auto. intros s' o' [E|Hi]; [inversion E; subst; auto|]. destruct (tle s' t) eqn:E; auto. exfalso.
    assert (Hlt : lt s s') by (apply HF; change s' with (fst (s', o')); apply in_map; auto).
    assert (Hle : tle s s' = true) by (apply total_tle_le, lt_le; auto). rewrite (tle_trans _ _ _ Hle E) in Es. discriminate.
Qed.
Lemma cur_late l p t : Forall (fun x => tle (fst x) t = false) l -> cur l p t = p.
Proof. destruct l as [|[s o] l]; auto. intros H. inversion H as [|? ? Hx _]; subst. cbn [cur fst] in *. rewrite Hx. auto. Qed.

Lemma changes_acc {TO : TotalTime T} (k : K) (l : list (T * option V)) : timed l -> forall (p : option V) (v : V) (t : T), acc (D:=K*V) (T:=T) (R:=Z) (u_changes k p l) (k, v) t = (ind (cur l p t) v - ind p v)%Z.
Proof.
  induction l as [|[s o] l IH]; intros HS p v t; [cbn; lia|]. apply strictly_sorted_cons_inv in HS as [HS HF]. specialize (IH HS).
  assert (Hlate : tle s t = false -> forall q, cur l q t = q).
  { intros Es q. apply cur_late. apply Forall_forall. intros [s' o'] Hi. cbn [fst]. destruct (tle s' t) eqn:E; auto. exfalso.
    assert (Hlt : lt s s') by (apply (proj1 (Forall_forall _ _) HF); change s' with (fst (s', o')); apply in_map; auto).
    assert (Hle : tle s s' = true) by (apply total_tle_le, lt_le; auto). rewrite (tle_trans _ _ _ Hle E) in Es. discriminate. }
  cbn [u_changes cur]. destruct (eqb_spec p o) as [->|Hn]; cbn [negb].
  { rewrite IH. destruct (tle s t) eqn:Es; auto. rewrite Hlate; auto. }
  assert (Hone : forall (v' : V) (r : Z), acc [((k, v'), s, r)] (k, v) t = if tle s t then (if eqb v' v then r else 0%Z) else 0%Z).
  { intros v' r. rewrite acc_cons'. cbn [fst snd]. rewrite acc_nil. cbn [dplus dzero Diff_Z]. rewrite Z.add_0_r.
    assert (Ek : eqb (k, v') (k, v) = eqb v' v) by (destruct (eqb_spec (k, v') (k, v)) as [E|E], (eqb_spec v' v) as [E'|E']; auto; [inversion E; congruence|subst; congruence]).
    rewrite Ek. destruct (eqb v' v), (tle s t); auto. }
  rewrite !acc_app, IH.
  assert (Hp : acc (match p with Some prev => [((k, prev), s, (-1)%Z)] | None => [] end) (k, v) t = if tle s t then (- ind p v)%Z else 0%Z).
  { destruct p as [v'|]; [rewrite Hone; cbn [ind]; destruct (tle s t), (eqb v' v); auto|]. rewrite acc_nil. cbn. destruct (tle s t); auto. }
  assert (Ho : acc (match o with Some next => [((k, next), s, 1%Z)] | None => [] end) (k, v) t = if tle s t then ind o v else 0%Z).
  { destruct o as [v'|]; [rewrite Hone; cbn [ind]; destruct (tle s t), (eqb v' v); auto|]. rewrite acc_nil. cbn. destruct (tle s t); auto. }
  rewrite Hp, Ho. cbn [dplus Diff_Z]. destruct (tle s t) eqn:Es; [lia|]. rewrite Hlate by auto. lia.
Qed.
Lemma changes_in (k : K) (l : list (T * option V)) (p : option V) u : In u (u_changes k p l) -> fst (fst (fst u)) = k /\ In (snd (fst u)) (map fst l) /\ snd u <> 0%Z.
Proof.
  revert p. induction l as [|[s o] l IH]; intros p H; cbn [u_changes] in H; [destruct H|].
  destruct (negb (eqb p o)).
  - apply in_app_or in H as [H|H]; [|apply in_app_or in H as [H|H]].
    + destruct p; [|destruct H]. destruct H as [<-|[]]. cbn. split; [auto|split; [auto|lia]].
    + destruct o; [|destruct H]. destruct H as [<-|[]]. cbn. split; [auto|split; [auto|lia]].
    + destruct (IH _ H) as (H1 & H2 & H3). split; [auto|split; [right; auto|auto]].
  - destruct (IH _ H) as (H1 & H2 & H3). split; [auto|split; [right; auto|auto]].
Qed.
Lemma changes_nodup (k : K) (l : list (T * option V)) (p : option V) : timed l -> NoDup (map fst (u_changes k p l)).
Proof.
  revert p. induction l as [|[s o] l IH]; intros p HS; [constructor|]. apply strictly_sorted_cons_inv in HS as [HS HF]. cbn [u_changes].
  assert (Hnot : forall q v, ~ In ((k, v), s) (map fst (u_changes k q l))).
  { intros q v Hi. apply in_map_iff in Hi as (u & Eu & Hi). apply changes_in in Hi as (_ & Hi & _). rewrite Eu in Hi. cbn in Hi. apply (lt_irrefl s). apply (proj1 (Forall_forall _ _) HF); auto. }
  destruct (eqb_spec p o) as [->|Hn]; cbn [negb]; auto.
  destruct p as [v1|], o as [v2|]; cbn [app map fst]; auto; try congruence.
  - constructor; [|constructor; auto]. intros [E|Hi]; [inversion E; congruence|eapply Hnot; eauto].
  - constructor; auto.
  - constructor; auto.
Qed.
Lemma isort_consolidated {A} {OA : Ord A} (us : list (A * Z)) : NoDup (map fst us) -> Forall (fun u => snd u <> 0%Z) us -> consolidated (isort us).
Proof.
  intros HN HZ. pose proof (isort_perm us) as HP. pose proof (isort_sorted us) as HS.
  assert (HN' : NoDup (map fst (isort us))) by (eapply Permutation_NoDup; [apply Permutation_map; symmetry; exact HP|auto]).
  split.
  - clear HP HZ HN. induction (isort us) as [|x l IH]; [constructor|]. cbn [map] in *. inversion HN' as [|? ? Hx HN2]; subst. 
    apply strictly_sorted_cons; [apply IH; auto; inversion HS; auto|]. apply Forall_forall. intros y Hy. apply in_map_iff in Hy as (z & <- & Hz).
    inversion HS as [|? ? HF _]; subst. pose proof (proj1 (Forall_forall _ _) HF z Hz) as Hle. apply le_lteq in Hle as [Hle|Hle]; auto.
    exfalso. apply Hx. rewrite Hle. apply in_map; auto.
  - eapply Permutation_Forall; [symmetry; exact HP|]. eapply Forall_impl; [|exact HZ]. intros u Hu. apply Z.eqb_neq. intros E. apply Hu. auto.
Qed.

(** ** Sorting and discarding *)
Definition up_le (a b : T * option V) : Prop := lt (fst a) (fst b) \/ (fst a = fst b /\ le (snd b) (snd a)).
Lemma list_before_spec a b : list_before a b = true -> up_le a b.
Proof.
  unfold list_before, up_le. destruct (cmp_spec (fst a) (fst b)) as [E|E|E]; try discriminate; auto. intros H. right. split; auto. apply leb_le; auto.
Qed.
Lemma list_before_false a b : list_before a b = false -> up_le b a.
Proof.
  unfold list_before, up_le. destruct (cmp_spec (fst a) (fst b)) as [E|E|E]; try discriminate; auto. intros H. right. split; auto. apply leb_gt in H. apply lt_le; auto.
Qed.
Lemma up_le_trans a b c : up_le a b -> up_le b c -> up_le a c.
Proof.
  unfold up_le. intros [H1|[H1 H1']] [H2|[H2 H2']].
  - left. eapply lt_trans; eauto.
  - left. rewrite <- H2. auto.
  - left. rewrite H1. auto.
  - right. split; [congruence|eapply le_trans; eauto].
Qed.
Lemma list_insert_perm x l : Permutation (list_insert x l) (x :: l).
Proof. induction l as [|y l IH]; cbn [list_insert]; auto. destruct (list_before x y); auto. rewrite IH. constructor. Qed.
Lemma list_sort_perm l : Permutation (list_sort l) l.
Proof. induction l as [|x l IH]; cbn [list_sort fold_right]; auto. rewrite list_insert_perm. constructor. exact IH. Qed.
Lemma list_insert_sorted x l : StronglySorted up_le l -> StronglySorted up_le (list_insert x l).
Proof.
  induction l as [|y l IH]; intros HS; cbn [list_insert]; [repeat constructor|]. inversion HS as [|? ? HS' HF]; subst. destruct (list_before x y) eqn:E.
  - apply list_before_spec in E. constructor; auto. constructor; auto. eapply Forall_impl; [|exact HF]. intros z Hz. eapply up_le_trans; eauto.
  - apply list_before_false in E. constructor; auto. eapply Permutation_Forall; [symmetry; apply list_insert_perm|]. constructor; auto.
Qed.
Lemma list_sort_sorted l : StronglySorted up_le (list_sort l).
Proof. induction l as [|x l IH]; cbn [list_sort fold_right]; [constructor|]. apply list_insert_sorted. exact IH. Qed.
Lemma dedup_from_ok l : forall x, StronglySorted up_le (x :: l) ->
  timed (list_dedup_from x l) /\ incl (list_dedup_from x l) (x :: l) /\
  (forall s o', In (s, o') (x :: l) -> exists o, In (s, o) (list_dedup_from x l) /\ le o' o) /\
  Forall (fun y => le (fst x) (fst y)) (list_dedup_from x l) /\
  (forall s o o', In (s, o) (list_dedup_from x l) -> In (s, o') (x :: l) -> le o' o).
Proof.
  induction l as [|y l IH]; intros [xs xo] HS; cbn [list_dedup_from].
  - split; [repeat constructor|split; [apply incl_refl|split; [|split]]].
    + intros s o' [E|[]]. inversion E; subst. exists o'. split; [left; auto|apply le_refl].
    + repeat constructor. apply le_refl.
    + intros s o o' [E|[]] [E'|[]]. inversion E; inversion E'; subst. apply le_refl.
  - inversion HS as [|? ? HS' HF]; subst. inversion HF as [|? ? Hxy HF']; subst. destruct (eqb_spec (fst y) (fst (xs, xo))) as [E|E].
    + destruct (IH (xs, xo)) as (I1 & I2 & I3 & I4 & I5). { inversion HS'; subst. constructor; auto. }
      split; [exact I1|split; [|split; [|split; [exact I4|]]]].
      * intros z Hz. destruct (I2 z Hz) as [H|H]; [left; auto|right; right; auto].
      * intros s o' [H|[H|H]]; [eapply I3; left; eauto| |eapply I3; right; eauto].
        subst y. cbn [fst] in E. subst s. destruct (I3 xs xo (or_introl eq_refl)) as (o & Ho & Hle). exists o. split; auto. destruct Hxy as [Hxy|[_ Hxy]]; cbn in Hxy; [destruct (lt_irrefl _ Hxy)|]. eapply le_trans; eauto.
      * intros s o o' Ho [H|[H|H]]; [eapply I5; eauto; left; auto| |eapply I5; eauto; right; auto].
        subst y. cbn [fst] in E. subst s. eapply le_trans; [|eapply I5; [exact Ho|left; reflexivity]]. destruct Hxy as [Hxy|[_ Hxy]]; cbn in Hxy; [destruct (lt_irrefl _ Hxy)|auto].
    + destruct (IH y HS') as (I1 & I2 & I3 & I4 & I5). assert (Hlt : lt xs (fst y)) by (destruct Hxy as [H|[H _]]; cbn [fst] in *; [auto|congruence]).
      assert (Hall : forall z, In z (list_dedup_from y l) -> lt xs (fst z)) by (intros z Hz; eapply lt_le_trans; [exact Hlt|apply (proj1 (Forall_forall _ _) I4 z Hz)]).
      split; [|split; [|split; [|split]]].
      * apply strictly_sorted_cons; auto. apply Forall_forall. intros s Hs. apply in_map_iff in Hs as (z & <- & Hz). apply Hall; auto.
      * intros z [<-|Hz]; [left; auto|right; apply I2; auto].
      * intros s o' [H|H]; [inversion H; subst; exists o'; split; [left; auto|apply le_refl]|]. destruct (I3 s o' H) as (o & Ho & Hle). exists o. split; [right; auto|auto].
      * constructor; [apply le_refl|]. apply Forall_forall. intros z Hz. apply lt_le, Hall; auto.
      * assert (Hall2 : forall z, In z (y :: l) -> lt xs (fst z)).
        { intros z Hz. destruct (I3 (fst z) (snd z)) as (o & Ho & _); [destruct z; auto|]. apply (Hall _ Ho). }
        intros s o o' [H|H] [H'|H'].
        -- inversion H; inversion H'; subst. apply le_refl.
        -- inversion H; subst. destruct (lt_irrefl _ (Hall2 _ H')).
        -- inversion H'; subst. destruct (lt_irrefl _ (Hall _ H)).
        -- eapply I5; eauto.
Qed.
Definition tidy (l : list (T * option V)) := list_dedup (list_sort l).
Lemma tidy_ok l : timed (tidy l) /\ (forall s o, In (s, o) (tidy l) -> In (s, o) l /\ forall o', In (s, o') l -> le o' o) /\
  (forall s o', In (s, o') l -> exists o, In (s, o) (tidy l)).
Proof.
  unfold tidy. pose proof (list_sort_perm l) as HP. pose proof (list_sort_sorted l) as HS. destruct (list_sort l) as [|x l'] eqn:E; cbn [list_dedup].
  - apply Permutation_nil in HP. subst. split; [constructor|split; [intros s o []|intros s o' []]].
  - destruct (dedup_from_ok l' x HS) as (I1 & I2 & I3 & _ & I5). split; [exact I1|split].
    + intros s o Ho. split; [eapply Permutation_in; [exact HP|apply I2; auto]|]. intros o' Ho'. eapply I5; eauto. eapply Permutation_in; [symmetry; exact HP|auto].
    + intros s o' Ho'. destruct (I3 s o') as (o & Ho & _); [eapply Permutation_in; [symmetry; exact HP|auto]|]. eauto.
Qed.

(** ** The value of a key *)
Definition of_key (us : list (K * option V * T)) (k : K) : list (T * option V) :=
  map (fun u => (snd u, snd (fst u))) (filter (fun u => eqb (fst (fst u)) k) us).
Lemma in_of_key (us : list (K * option V * T)) k s o : In (s, o) (of_key us k) <-> In (k, o, s) us.
Proof.
  unfold of_key. rewrite in_map_iff. split.
  - intros ([[k' o'] s'] & E & H). inversion E; subst. apply filter_In in H as [H E2]. cbn in *. destruct (eqb_spec k' k); [subst; auto|discriminate].
  - intros H. exists (k, o, s). split; auto. apply filter_In. split; auto. apply eqb_refl.
Qed.
Definition val_of (us : list (K * option V * T)) k t : option V := cur (tidy (of_key us k)) None t.
Lemma value_unique (us : list (K * option V * T)) k t o1 o2 : value_as_of us k t o1 -> value_as_of us k t o2 -> o1 = o2.
Proof.
  intros [(s1 & H1 & H2 & H3)|[-> H]] [(s2 & H4 & H5 & H6)|[-> H']]; auto.
  - destruct (H3 _ _ H4 H5) as [L|[-> L]]; destruct (H6 _ _ H1 H2) as [L'|[E L']]; subst.
    + destruct (lt_irrefl s1). eapply lt_trans; eauto.
    + destruct (lt_irrefl _ L).
    + destruct (lt_irrefl _ L').
    + apply le_antisym; auto.
  - rewrite (H' _ _ H1) in H2. discriminate.
  - rewrite (H _ _ H4) in H5. discriminate.
Qed.
(** later upserts on top of a value *)
Lemma value_layers {TO : TotalTime T} (us vs : list (K * option V * T)) k t l : value_as_of us k t (val_of us k t) ->
  (forall s o, In (s, o) l <-> In (k, o, s) vs) -> (forall s s' o o', In (k, o, s) us -> In (k, o', s') vs -> lt s s') ->
  value_as_of (us ++ vs) k t (cur (tidy l) (val_of us k t) t).
Proof.
  intros HV Hl Hlt. destruct (tidy_ok l) as (T1 & T2 & T3). destruct (cur_spec (tidy l) T1 (val_of us k t) t) as [(s & H1 & H2 & H3)|[-> H]].
  - left. exists s. destruct (T2 _ _ H1) as [T4 T5]. apply Hl in T4. split; [apply in_or_app; auto|split; [auto|]]. intros o' s' Hi Hle. apply in_app_or in Hi as [Hi|Hi].
    + left. eapply Hlt; eauto.
    + apply Hl in Hi. destruct (T3 _ _ Hi) as (o2 & Ho2). specialize (H3 _ _ Ho2 Hle). apply le_lteq in H3 as [H3|H3]; [left; auto|right; split; auto]. subst s'. apply T5; auto.
  - assert (Hno : forall o' s', In (k, o', s') vs -> tle s' t = false) by (intros o' s' Hi; apply Hl in Hi; destruct (T3 _ _ Hi) as (o2 & Ho2); eapply H; eauto).
    destruct HV as [(s & H1 & H2 & H3)|[E H1]].
    + left. exists s. split; [apply in_or_app; auto|split; [auto|]]. intros o' s' Hi Hle. apply in_app_or in Hi as [Hi|Hi]; auto. rewrite (Hno _ _ Hi) in Hle. discriminate.
    + right. split; auto. intros o' s' Hi. apply in_app_or in Hi as [Hi|Hi]; eauto.
Qed.
Lemma val_of_spec {TO : TotalTime T} (us : list (K * option V * T)) k t : value_as_of us k t (val_of us k t).
Proof.
  apply (value_layers [] us k t (of_key us k)); [right; split; auto; intros o' s' []| |intros s s' o o' []].
  intros s o. apply in_of_key.
Qed.
Lemma value_same (us vs : list (K * option V * T)) k t o : (forall o' s, tle s t = true -> In (k, o', s) us <-> In (k, o', s) vs) -> value_as_of us k t o -> value_as_of vs k t o.
Proof.
  intros H [(s & H1 & H2 & H3)|[-> H1]].
  - left. exists s. split; [apply H; auto|split; [auto|]]. intros o' s' Hi Hle. apply H3; auto. apply H; auto.
  - right. split; auto. intros o' s' Hi. destruct (tle s' t) eqn:E; auto. apply (H _ _ E) in Hi. rewrite (H1 _ _ Hi) in E. discriminate.
Qed.
Lemma value_late (us : list (K * option V * T)) k t t' o : (forall o' s, In (k, o', s) us -> tle s t = true /\ tle s t' = true) -> value_as_of us k t o -> value_as_of us k t' o.
Proof.
  intros H [(s & H1 & H2 & H3)|[-> H1]].
  - left. exists s. split; [auto|split; [apply (H _ _ H1)|]]. intros o' s' Hi _. apply H3; auto. apply (H _ _ Hi).
  - right. split; auto. intros o' s' Hi. pose proof (proj1 (H _ _ Hi)) as E. rewrite (H1 _ _ Hi) in E. discriminate.
Qed.
End Values.

(** ** The queue *)
Section Queue.
Context {K V T : Type} {OK : Ord K} {OV : Ord V} {TT : Time T} {TO : TotalTime T}.
Local Notation upsert := (upsert K V T).
Definition as_upsert (u : K * option V * T) : upsert := (snd u, fst (fst u), snd (fst u)).
Definition q_sorted (q : list upsert) : Prop := StronglySorted (fun a b => tle (fst (fst a)) (fst (fst b)) = true) q.
Lemma heap_push_perm (x : upsert) q : Permutation (heap_push x q) (x :: q).
Proof. induction q as [|y q IH]; cbn [heap_push]; auto. destruct (u_before x y); auto. rewrite IH. constructor. Qed.
Lemma u_le_time (x y : upsert) : le x y -> tle (fst (fst x)) (fst (fst y)) = true.
Proof.
  intros H. apply total_tle_le. destruct x as [[t k] o], y as [[t' k'] o']. cbn [fst]. intros E. apply H.
  change (pair_cmp (t, k, o) (t', k', o') = Gt). unfold pair_cmp at 1. cbn [fst snd].
  change (cmp (t, k) (t', k')) with (pair_cmp (t, k) (t', k')). unfold pair_cmp. cbn [fst snd]. rewrite E. reflexivity.
Qed.
Lemma heap_push_sorted (x : upsert) q : q_sorted q -> q_sorted (heap_push x q).
Proof.
  induction q as [|y q IH]; intros HS; cbn [heap_push]; [repeat constructor|]. inversion HS as [|? ? HS' HF]; subst. unfold u_before. destruct (leb x y) eqn:E.
  - apply leb_le, u_le_time in E. constructor; auto. constructor; auto. eapply Forall_impl; [|exact HF]. intros z Hz. eapply tle_trans; eauto.
  - apply leb_gt, lt_le, u_le_time in E. constructor; [apply IH; auto|]. eapply Permutation_Forall; [symmetry; apply heap_push_perm|]. constructor; auto.
Qed.
Lemma stash_ok us : forall q, q_sorted q -> q_sorted (u_stash q us) /\ Permutation (u_stash q us) (q ++ map as_upsert us).
Proof.
  unfold u_stash. induction us as [|[[k o] t] us IH]; intros q HS; cbn [fold_left map]; [rewrite app_nil_r; auto|].
  destruct (IH (heap_push (t, k, o) q) (heap_push_sorted _ _ HS)) as [I1 I2]. split; [exact I1|]. rewrite I2, heap_push_perm. cbn [app]. apply Permutation_middle.
Qed.
Definition entries (m : list (K * list (T * option V))) : list upsert := flat_map (fun e => map (fun x => (fst x, fst e, snd x)) (snd e)) m.
Lemma entry_push_ok key x m : strictly_sorted (map fst m) -> strictly_sorted (map fst (entry_push key x m)) /\ Permutation (entries (entry_push key x m)) ((fst x, key, snd x) :: entries m) /\
  (forall k, In k (map fst (entry_push key x m)) -> k = key \/ In k (map fst m)).
Proof.
  induction m as [|[k l] m IH]; intros HS; cbn [entry_push].
  - split; [repeat constructor|split; [apply Permutation_refl|cbn; intuition]].
  - cbn [map fst] in HS. destruct (strictly_sorted_cons_inv _ _ HS) as [HS' HF]. destruct (cmp_spec key k) as [->|E|E].
    + split; [exact HS|split; [|cbn; intuition]]. unfold entries. cbn [flat_map fst snd]. rewrite map_app. cbn [map]. rewrite <- app_assoc. cbn [app]. symmetry. apply Permutation_middle.
    + split; [|split; [apply Permutation_refl|cbn; intuition]]. cbn [map fst]. apply strictly_sorted_cons; auto. constructor; auto. eapply Forall_impl; [|exact HF]. intros z Hz. eapply lt_trans; eauto.
    + destruct (IH HS') as (I1 & I2 & I3). split; [|split].
      * cbn [map fst]. apply strictly_sorted_cons; auto. apply Forall_forall. intros z Hz. destruct (I3 z Hz) as [->|Hi]; auto. apply (proj1 (Forall_forall _ _) HF z Hi).
      * unfold entries in *. cbn [flat_map fst snd]. rewrite I2. symmetry. apply Permutation_middle.
      * cbn [map fst]. intros z [<-|Hz]; [right; left; auto|]. destruct (I3 z Hz); [left; auto|right; right; auto].
Qed.
Lemma total_beyond (F : list T) s t : beyond F s -> ~ beyond F t -> tle t s = true /\ lt t s.
Proof.
  intros Hs Ht. assert (H : tle t s = true). { destruct (tle_total t s) as [H|H]; auto. exfalso. apply Ht. eapply beyond_mono; eauto. }
  split; auto. apply total_tle_le, le_lteq in H as [H|H]; auto. subst. contradiction.
Qed.
Lemma extract_ok (upper : list T) q : forall m, q_sorted q -> strictly_sorted (map fst m) ->
  exists m', u_extract upper q m = (filter (fun u => beyondb upper (fst (fst u))) q, m') /\ strictly_sorted (map fst m') /\
    Permutation (entries m') (entries m ++ filter (fun u => negb (beyondb upper (fst (fst u)))) q).
Proof.
  induction q as [|[[t k] o] q IH]; intros m HQ HS; cbn [u_extract filter fst].
  - exists m. rewrite app_nil_r. auto.
  - inversion HQ as [|? ? HQ' HF]; subst. destruct (ac_less_equal upper t) eqn:E; cbn [negb].
    + apply ac_less_equal_spec in E. assert (Hall : forall u, In u q -> beyondb upper (fst (fst u)) = true).
      { intros u Hu. apply beyondb_spec. apply (beyond_mono _ t); auto. apply (proj1 (Forall_forall _ _) HF u Hu). }
      assert (Et : beyondb upper t = true) by (apply beyondb_spec; auto). rewrite Et. cbn [negb].
      exists m. split; [f_equal; f_equal; symmetry|split; [auto|]].
      * clear - Hall. induction q as [|u q IH]; auto. cbn [filter]. rewrite Hall by (left; auto). f_equal. apply IH. intros x Hx. apply Hall. right; auto.
      * replace (filter (fun u : upsert => negb (beyondb upper (fst (fst u)))) q) with (@nil upsert); [rewrite app_nil_r; auto|].
        clear - Hall. induction q as [|u q IH]; auto. cbn [filter]. rewrite Hall by (left; auto). cbn [negb]. apply IH. intros x Hx. apply Hall. right; auto.
    + apply ac_less_equal_false in E. assert (Et : beyondb upper t = false) by (apply beyondb_false; auto). rewrite Et. cbn [negb].
      destruct (entry_push_ok k (t, o) m HS) as (P1 & P2 & _). destruct (IH (entry_push k (t, o) m) HQ' P1) as (m' & E1 & E2 & E3). exists m'. split; [exact E1|split; [exact E2|]].
      rewrite E3, P2. cbn [fst snd app]. apply Permutation_middle.
Qed.
Lemma in_entries m k l s o : strictly_sorted (map fst m) -> In (k, l) m -> (In (s, o) l <-> In (s, k, o) (entries m)).
Proof.
  intros HS Hi. unfold entries. rewrite in_flat_map. split.
  - intros H. exists (k, l). split; auto. apply in_map_iff. exists (s, o). auto.
  - intros ([k' l'] & Hi' & H). apply in_map_iff in H as ([s' o'] & E & H). cbn in E. inversion E; subst. 
    assert (l' = l); [|subst; auto]. apply strictly_sorted_nodup in HS. clear - HS Hi Hi'. induction m as [|[k0 l0] m IH]; [destruct Hi|]. cbn [map fst] in HS. inversion HS as [|? ? Hn HS']; subst.
    destruct Hi as [E|Hi], Hi' as [E'|Hi']; try congruence; auto.
    + inversion E; subst. destruct Hn. change k with (fst (k, l')). apply in_map; auto.
    + inversion E'; subst. destruct Hn. change k with (fst (k, l)). apply in_map; auto.
Qed.
End Queue.

(** ** Reading the trace *)
Section Reading.
Context {B M C K V T : Type} {OK : Ord K} {OV : Ord V} {TT : Time T}.
Variable ops : BatchOps B M T. Variable contents : B -> list (K * V * T * Z). Variable laws : BatchLaws (D:=K*V) ops contents.
Variable cops : CursorOps B C K V T Z. Variable new : C.
Hypothesis HR : readable ops contents laws cops new.

Lemma acc_flat (tr : trie K V T Z) k v t : acc (flat tr) (k, v) t = total_of (times_under tr k v) t.
Proof.
  unfold times_under, vals_under. induction tr as [|[k' vs] tr IH]; auto. unfold flat in *. cbn [flat_map fst snd]. rewrite acc_app, IH, flat_map_app, total_app. f_equal.
  clear IH. assert (Hother : k' <> k -> acc (flat_map (fun vl => map (fun td => (k', fst vl, fst td, snd td)) (snd vl)) vs) (k, v) t = 0%Z).
  { intros Hk. induction vs as [|[v' l] vs IH]; auto. cbn [flat_map fst snd]. rewrite acc_app, IH. cbn [dplus Diff_Z]. rewrite Z.add_0_r. induction l as [|[s r] l IHl]; auto. cbn [map fst snd]. rewrite acc_cons. cbn [fst snd].
    destruct (eqb_spec (k', v') (k, v)) as [E|E]; [inversion E; congruence|]. exact IHl. }
  destruct (eqb_spec k' k) as [->|Hk]; [|rewrite Hother; auto]. clear Hother. induction vs as [|[v' l] vs IH]; auto. cbn [flat_map fst snd]. rewrite acc_app, IH, total_app. f_equal. clear IH.
  assert (Hl : acc (map (fun td => (k, v', fst td, snd td)) l) (k, v) t = if eqb v' v then total_of l t else 0%Z).
  { induction l as [|[s r] l IH]; cbn [map]; [destruct (eqb v' v); auto|]. rewrite acc_cons. cbn [fst snd]. rewrite IH. 
    destruct (eqb_spec (k, v') (k, v)) as [E|E], (eqb_spec v' v) as [E'|E']; try (inversion E; congruence); try (subst; congruence); cbn [andb]; auto.
    unfold total_of. cbn [filter fst]. destruct (tle s t); auto. }
  rewrite Hl. destruct (eqb v' v); auto.
Qed.
Lemma nodup_flat {A X} {OA : Ord A} (l : list (A * list X)) a x : NoDup (map fst l) -> In (a, x) l -> flat_map (fun e => if eqb (fst e) a then snd e else []) l = x.
Proof.
  induction l as [|[a' x'] l IH]; intros HN Hi; [destruct Hi|]. cbn [map fst] in HN. inversion HN as [|? ? Hn HN']; subst. cbn [flat_map fst snd].
  assert (Hnil : forall b, ~ In b (map fst l) -> flat_map (fun e => if eqb (fst e) b then snd e else []) l = []).
  { clear. intros b. induction l as [|[a x] l IH]; intros H; auto. cbn [flat_map fst snd]. destruct (eqb_spec a b) as [->|E]; [destruct H; left; auto|]. apply IH. intros Hi. apply H. right; auto. }
  destruct Hi as [E|Hi].
  - inversion E; subst. rewrite eqb_refl, Hnil, app_nil_r; auto.
  - destruct (eqb_spec a' a) as [->|E]; [destruct Hn; change a with (fst (a, x)); apply in_map; auto|]. apply IH; auto.
Qed.
Lemma union_vals_sorted bs k vs : In (k, vs) (union_trie (tries contents bs)) -> strictly_sorted (map fst vs).
Proof.
  unfold union_trie. rewrite in_map_iff. intros (k' & E & _). inversion E; subst. rewrite map_map. cbn [fst]. rewrite map_id. apply sort_set_sorted.
Qed.
Lemma union_total bs k vs v ts t : In (k, vs) (union_trie (tries contents bs)) -> In (v, ts) vs ->
  Forall (fun u => tle (time_of u) t = true) (flat (union_trie (tries contents bs))) ->
  dsum (map snd ts) = acc (flat_map contents bs) (k, v) t.
Proof.
  intros Hk Hv HF. rewrite <- (acc_same_weights _ _ (k, v) t (union_weights contents bs)), acc_flat. unfold times_under, vals_under.
  rewrite (nodup_flat _ k vs (strictly_sorted_nodup _ (union_sorted contents bs)) Hk). rewrite (nodup_flat _ v ts (strictly_sorted_nodup _ (union_vals_sorted _ _ _ Hk)) Hv).
  symmetry. apply total_all. apply Forall_forall. intros [s r] Hi. apply (proj1 (Forall_forall _ _) HF ((k, v), s, r)). unfold flat. apply in_flat_map. exists (k, vs). split; auto.
  apply in_flat_map. exists (v, ts). split; auto. cbn [fst snd]. apply in_map_iff. exists (s, r). auto.
Qed.
Lemma union_has bs k v t : acc (flat_map contents bs) (k, v) t <> 0%Z -> exists vs ts, In (k, vs) (union_trie (tries contents bs)) /\ In (v, ts) vs.
Proof.
  rewrite <- (acc_same_weights _ _ (k, v) t (union_weights contents bs)), acc_flat. unfold times_under, vals_under. intros H.
  destruct (flat_map (fun e => if eqb (fst e) v then snd e else []) (flat_map (fun e => if eqb (fst e) k then snd e else []) (union_trie (tries contents bs)))) as [|x l] eqn:E; [destruct H; reflexivity|].
  assert (Hi : In x (x :: l)) by (left; auto). rewrite <- E in Hi. apply in_flat_map in Hi as ([v' ts] & Hi & Hx). apply in_flat_map in Hi as ([k' vs] & Hk & Hv). cbn [fst snd] in *.
  destruct (eqb_spec k' k) as [->|]; [|destruct Hv]. destruct (eqb_spec v' v) as [->|]; [|destruct Hx]. eauto.
Qed.

Lemma fold_count (ts : list (T * Z)) c : fold_left (fun c td => (c + snd td)%Z) ts c = (c + dsum (map snd ts))%Z.
Proof. revert c. induction ts as [|x ts IH]; intros c; cbn [fold_left map dsum]; [cbn; lia|]. rewrite IH. change (dsum (snd x :: map snd ts)) with (snd x + dsum (map snd ts))%Z. lia. Qed.

Lemma prior_ok tbs i k vs (p : option V) : let U := union_trie (tries contents tbs) in nth_error U i = Some (k, vs) ->
  (forall v ts, In (v, ts) vs -> dsum (map snd ts) = ind p v) ->
  forall fuel j tc prev, shows (cl_ops cops) tbs U tc {| kp := i; vp := j |} -> j <= length vs -> length vs - j <= fuel ->
  (match prev with None => True | Some v => p = Some v /\ ~ In v (map fst (skipn j vs)) end) ->
  exists tc', u_prior cops fuel tbs tc prev = Some (tc', match prev with None => match p with Some v => if existsb (fun e => eqb (fst e) v) (skipn j vs) then Some v else None | None => None end | Some v => Some v end) /\
    shows (cl_ops cops) tbs U tc' {| kp := i; vp := length vs |}.
Proof.
  intros U Hi Hp. pose proof (union_vals_sorted tbs k vs (nth_error_In _ _ Hi)) as HVS. induction fuel as [|fuel IH]; intros j tc prev HS Hj Hf Hprev; cbn [u_prior].
  - assert (Hk : at_key U {| kp := i; vp := j |} = Some k) by (unfold at_key; cbn [kp]; rewrite Hi; auto).
    destruct (shows_get_val _ _ _ _ _ _ HS Hk) as [Ev _]. unfold at_val, cur_vals in Ev. cbn [kp vp] in Ev. rewrite Hi, (proj2 (nth_error_None vs j)) in Ev by lia. simpl option_map in Ev. simpl c_get_val in *. rewrite Ev.
    exists tc. replace (length vs) with j by lia. split; auto. rewrite skipn_all2 by lia. destruct prev as [v|]; auto. destruct p; auto.
  - assert (Hk : at_key U {| kp := i; vp := j |} = Some k) by (unfold at_key; cbn [kp]; rewrite Hi; auto).
    destruct (shows_get_val _ _ _ _ _ _ HS Hk) as [Ev Em]. unfold at_val, at_times, cur_vals in Ev, Em. cbn [kp vp] in Ev, Em. rewrite Hi in Ev, Em.
    destruct (nth_error vs j) as [[v ts]|] eqn:Ej.
    2:{ apply nth_error_None in Ej. cbn [option_map] in Ev. simpl c_get_val in *. rewrite Ev. exists tc. replace (length vs) with j by lia. split; auto. rewrite skipn_all2 by lia. destruct prev as [v|]; auto. destruct p; auto. }
    cbn [option_map fst snd] in Ev, Em. simpl c_get_val in *. rewrite Ev. specialize (Em ltac:(discriminate)). simpl c_map_times in *. rewrite Em.
    rewrite fold_count, Z.add_0_l, (Hp v ts (nth_error_In _ _ Ej)).
    destruct (shows_nav _ _ _ _ _ StepVal HS) as (tc1 & Es & HS1); [unfold legal; rewrite Hk; discriminate|exact I|]. cbn [c_nav] in Es. simpl c_step_val in *. rewrite Es.
    assert (Hlt : j < length vs) by (apply nth_error_Some; congruence).
    cbn [move kp vp] in HS1. unfold cur_vals in HS1. cbn [kp] in HS1. rewrite Hi, Nat.min_l in HS1 by lia.
    assert (Hsk : skipn j vs = (v, ts) :: skipn (S j) vs) by (apply nth_error_skipn_cons; auto). rewrite Hsk in *. cbn [existsb fst map] in *.
    assert (Hnot : ~ In v (map fst (skipn (S j) vs))).
    { assert (HVS' : strictly_sorted (map fst (skipn j vs))). { rewrite <- (firstn_skipn j vs), map_app in HVS. apply strictly_sorted_app in HVS. tauto. }
      rewrite Hsk in HVS'. cbn [map fst] in HVS'. apply strictly_sorted_nodup in HVS'. inversion HVS'; auto. }
    destruct (ind p v =? 0)%Z eqn:E0.
    + destruct (IH (S j) tc1 prev HS1) as (tc' & E & HS'); [lia|lia| |].
      { destruct prev as [v'|]; auto. destruct Hprev as [H1 H2]. split; [auto|]. intros Hx. apply H2. right; auto. }
      exists tc'. split; [|exact HS']. rewrite E. f_equal. f_equal. destruct prev as [v'|]; auto. destruct p as [v0|]; auto.
      cbn [ind] in E0. destruct (eqb_spec v0 v) as [->|Hv0]; [discriminate|]. destruct (eqb_spec v v0); [congruence|]. reflexivity.
    + assert (Hpv : p = Some v). { destruct p as [v0|]; [|discriminate]. cbn [ind] in E0. destruct (eqb_spec v0 v); [congruence|discriminate]. }
      subst p. cbn [ind]. rewrite eqb_refl. cbn [Z.eqb Pos.eqb].
      destruct prev as [v'|]. { exfalso. destruct Hprev as [H1 H2]. inversion H1; subst. apply H2. left; auto. }
      destruct (IH (S j) tc1 (Some v) HS1) as (tc' & E & HS'); [lia|lia|split; auto|]. exists tc'. split; [|exact HS']. rewrite E. reflexivity.
Qed.

(** seeking a key *)
Lemma seek_at (tr : trie K V T Z) k j : strictly_sorted (map fst tr) -> (forall n k0, n < j -> nth_error (map fst tr) n = Some k0 -> lt k0 k) ->
  let j1 := j + prefix_len (fun e => ltb (fst e) k) (skipn j tr) in
  (forall n k0, n < j1 -> nth_error (map fst tr) n = Some k0 -> lt k0 k) /\
  ((exists vs, nth_error tr j1 = Some (k, vs)) \/ ((forall e, nth_error tr j1 = Some e -> fst e <> k) /\ ~ In k (map fst tr))).
Proof.
  intros VS HJ j1.
  assert (Before : forall n k0, n < j1 -> nth_error (map fst tr) n = Some k0 -> lt k0 k).
  { intros n k0 Hn E0. destruct (Nat.lt_ge_cases n j) as [Hl|Hl]; [apply (HJ n k0 Hl E0)|].
    rewrite nth_error_map in E0. destruct (nth_error tr n) as [e|] eqn:E1; [|discriminate]. inversion E0; subst k0.
    assert (E2 : nth_error (skipn j tr) (n - j) = Some e) by (rewrite nth_error_skipn; replace (j + (n - j)) with n by lia; auto).
    assert (Hl2 : n - j < prefix_len (fun e => ltb (fst e) k) (skipn j tr)) by (unfold j1 in Hn; lia).
    apply ltb_lt. clear - E2 Hl2. revert E2 Hl2. generalize (n - j) as m. generalize (skipn j tr) as l. induction l as [|x l IH]; intros m E2 Hl2; [destruct m; discriminate|].
    simpl in Hl2. destruct (ltb (fst x) k) eqn:E; [|lia]. destruct m; simpl in E2; [inversion E2; subst; auto|]. eapply IH; eauto. lia. }
  assert (At : forall e, nth_error tr j1 = Some e -> le k (fst e)).
  { intros e E1. apply ltb_ge. assert (E2 : nth_error (skipn j tr) (prefix_len (fun e => ltb (fst e) k) (skipn j tr)) = Some e) by (rewrite nth_error_skipn; exact E1).
    clear - E2. revert E2. generalize (skipn j tr) as l. induction l as [|x l IH]; simpl; [discriminate|]. destruct (ltb (fst x) k) eqn:E; simpl; auto. intros E2. inversion E2; subst; auto. }
  split; [exact Before|]. destruct (nth_error tr j1) as [[k0 vs]|] eqn:E1.
  - destruct (eqb_spec k0 k) as [->|Hk]; [left; eauto|]. right. split; [intros e E; inversion E; subst; auto|]. intros Hin. apply In_nth_error in Hin as (n & En). destruct (Nat.lt_trichotomy n j1) as [Hl|[Hl|Hl]].
    + apply (lt_irrefl k). eapply Before; eauto.
    + subst n. rewrite nth_error_map, E1 in En. inversion En. auto.
    + pose proof (sorted_nth _ j1 n k0 k VS Hl) as L. rewrite nth_error_map, E1 in L. specialize (L eq_refl En). pose proof (At _ eq_refl) as L2. apply (lt_irrefl k). eapply le_lt_trans; eauto.
  - right. split; [discriminate|]. intros Hin. apply In_nth_error in Hin as (n & En). destruct (Nat.lt_ge_cases n j1) as [Hl|Hl].
    + apply (lt_irrefl k). eapply Before; eauto.
    + apply nth_error_None in E1. assert (n < length (map fst tr)) by (apply nth_error_Some; congruence). rewrite map_length in *. lia.
Qed.

Lemma keys_ok tbs fuel (P : K -> option V) : let U := union_trie (tries contents tbs) in
  (forall k vs v ts, In (k, vs) U -> In (v, ts) vs -> dsum (map snd ts) = ind (P k) v) ->
  (forall k v, P k = Some v -> exists vs ts, In (k, vs) U /\ In (v, ts) vs) ->
  Forall (fun e => length (snd e) <= fuel) U ->
  forall todo j jv tc, strictly_sorted (map fst todo) -> shows (cl_ops cops) tbs U tc {| kp := j; vp := jv |} ->
  (forall n k, n < j -> nth_error (map fst U) n = Some k -> forall k', In k' (map fst todo) -> lt k k') ->
  u_keys cops fuel tbs tc todo = Some (map (fun e => isort (A:=K*V*T) (u_changes (fst e) (P (fst e)) (tidy (snd e)))) todo).
Proof.
  intros U H1 H2 HF. pose proof (union_sorted contents tbs) as US. fold U in US. induction todo as [|[k l] todo IH]; intros j jv tc HS ST HJ; cbn [u_keys map fst snd]; auto.
  cbn [map fst] in HS. destruct (strictly_sorted_cons_inv _ _ HS) as [HS' HK].
  destruct (shows_nav _ _ _ _ _ (SeekKey k) ST) as (tc1 & Et & ST1); [exact I|exact I|]. cbn [c_nav] in Et. simpl c_seek_key in *. rewrite Et.
  cbn [move kp] in ST1. destruct (seek_at U k j US) as [Before At]; [intros n k0 Hn E0; eapply HJ; eauto; left; auto|]. set (j1 := j + prefix_len (fun e => ltb (fst e) k) (skipn j U)) in *.
  pose proof (shows_get_key _ _ _ _ _ ST1) as Eg. simpl c_get_key in *. rewrite Eg. clear Eg. unfold at_key. cbn [kp].
  destruct At as [(vs & Ej)|[Hna Hnin]].
  - rewrite Ej. cbn [option_map fst]. rewrite eqb_refl.
    assert (Hlen : length vs <= fuel) by (apply (proj1 (Forall_forall _ _) HF (k, vs)), (nth_error_In _ _ Ej)).
    destruct (prior_ok tbs j1 k vs (P k) Ej) with (fuel := fuel) (j := 0) (tc := tc1) (prev := @None V) as (tc2 & E2 & ST2); auto.
    { intros v ts Hv. eapply H1; [eapply nth_error_In; exact Ej|exact Hv]. } { lia. } { lia. }
    rewrite E2. cbn [skipn].
    assert (Epk : match P k with Some v => if existsb (fun e => eqb (fst e) v) vs then Some v else None | None => None end = P k).
    { destruct (P k) as [v|] eqn:Ep; auto. destruct (H2 k v Ep) as (vs' & ts & Hk & Hv).
      assert (vs' = vs); [|subst vs'].
      { assert (N1 := nodup_flat U k vs' (strictly_sorted_nodup _ US) Hk). assert (N2 := nodup_flat U k vs (strictly_sorted_nodup _ US) (nth_error_In _ _ Ej)). congruence. }
      replace (existsb (fun e => eqb (fst e) v) vs) with true; auto. symmetry. apply existsb_exists. exists (v, ts). split; auto. apply eqb_refl. }
    rewrite Epk. destruct (shows_nav _ _ _ _ _ StepKey ST2) as (tc3 & E3 & ST3); [exact I|exact I|]. cbn [c_nav] in E3. simpl c_step_key in *. rewrite E3.
    assert (Hlt : j1 < length U) by (apply nth_error_Some; congruence). cbn [move kp] in ST3. rewrite Nat.min_l in ST3 by (fold U; fold U in Hlt; exact Hlt).
    rewrite (IH (S j1) 0 tc3 HS' ST3); [reflexivity|]. intros n k0 Hn E0 k' Hk'. assert (Hkk : lt k k') by (apply (proj1 (Forall_forall _ _) HK k' Hk')).
    destruct (Nat.eq_dec n j1) as [->|Hne]; [|eapply lt_trans; [apply (Before n k0); [lia|exact E0]|auto]]. rewrite nth_error_map, Ej in E0. inversion E0; subst; auto.
  - assert (Ef : match option_map fst (nth_error U j1) with Some k0 => eqb k0 k | None => false end = false).
    { destruct (nth_error U j1) as [e|] eqn:Ee; auto. cbn [option_map]. destruct (eqb_spec (fst e) k); auto. destruct (Hna e eq_refl); auto. }
    rewrite Ef. assert (Epk : P k = None). { destruct (P k) as [v|] eqn:Ep; auto. destruct (H2 k v Ep) as (vs' & ts & Hk & _). destruct Hnin. change k with (fst (k, vs')). apply in_map; auto. }
    rewrite (IH j1 0 tc1 HS' ST1); [rewrite Epk; reflexivity|]. intros n k0 Hn E0 k' Hk'. eapply lt_trans; [eapply Before; eauto|apply (proj1 (Forall_forall _ _) HK k' Hk')].
Qed.
End Reading.

(** ** The operator *)
Section Operator.
Context {B M C K V T : Type} {OK : Ord K} {OV : Ord V} {TT : Time T} {TO : TotalTime T}.
Variable ops : BatchOps B M T. Variable contents : B -> list (K * V * T * Z). Variable laws : BatchLaws (D:=K*V) ops contents.
Variable cops : CursorOps B C K V T Z. Variable new : C.
Hypothesis HR : readable ops contents laws cops new.
Variable build : list (list (K * V * T * Z)) -> Description T -> B.
Hypothesis HB : builds_consolidated ops contents laws build.
Local Notation w_inv := (w_inv (D:=K*V) ops contents laws).
Local Notation uworld := (uworld B M K V T).

Lemma upper_bound (l : list T) : exists t, forall s, In s l -> tle s t = true.
Proof.
  induction l as [|x l (t & IH)]; [exists tmin; intros s []|]. exists (join x t). intros s [<-|Hs]; [apply join_ub_l|]. eapply tle_trans; [apply IH; auto|apply join_ub_r].
Qed.
Local Notation own_box := (own_box ops contents laws). Local Notation set_logical_own := (set_logical_own ops contents laws).
Local Notation set_physical_own := (set_physical_own ops contents laws). Local Notation exert_own := (exert_own ops contents laws). Local Notation others_own := (others_own ops).
Lemma empty_acc (bs : list B) (d : K * V) (t : T) : (forall b, In b bs -> contents b = []) -> acc (D:=K*V) (flat_map contents bs) d t = 0%Z.
Proof. intros H. replace (flat_map contents bs) with (@nil (K * V * T * Z)); auto. induction bs as [|b bs IH]; auto. cbn [flat_map]. rewrite (H b (or_introl eq_refl)), <- IH; auto. intros x Hx. apply H. right; auto. Qed.
(** one batch of changes *)
Lemma key_lt (k k' : K) (v v' : V) (t t' : T) : lt k k' -> lt (k, v, t) (k', v', t').
Proof.
  intros H. change (pair_cmp (k, v, t) (k', v', t') = Lt). unfold pair_cmp at 1. cbn [fst snd]. change (cmp (k, v) (k', v')) with (pair_cmp (k, v) (k', v')).
  unfold pair_cmp. cbn [fst snd]. unfold lt in H. rewrite H. reflexivity.
Qed.
Definition changed (P : K -> option V) (e : K * list (T * option V)) := isort (A:=K*V*T) (u_changes (fst e) (P (fst e)) (tidy (snd e))).
Lemma changed_in P e u : In u (changed P e) -> fst (fst (fst u)) = fst e /\ In (snd (fst u)) (map fst (snd e)).
Proof.
  intros H. apply (Permutation_in _ (isort_perm _)) in H. apply changes_in in H as (H1 & H2 & _). split; auto. apply in_map_iff in H2 as ([s o] & E & H2). destruct (tidy_ok (snd e)) as (_ & T2 & _).
  destruct (T2 _ _ H2) as [H3 _]. apply in_map_iff. exists (s, o). auto.
Qed.
Lemma changed_consolidated P todo : strictly_sorted (map fst todo) -> consolidated (A:=K*V*T) (concat (map (changed P) todo)).
Proof.
  induction todo as [|e todo IH]; intros HS; [apply consolidated_nil|]. cbn [map] in HS. apply strictly_sorted_cons_inv in HS as [HS HF]. cbn [map concat].
  apply consolidated_app. split; [|split; [apply IH; auto|]].
  - apply isort_consolidated; [apply changes_nodup, tidy_ok|]. apply Forall_forall. intros u Hu. apply changes_in in Hu. tauto.
  - intros u u' Hu Hu'. apply changed_in in Hu as [E1 _]. apply in_concat in Hu' as (l & Hl & Hu'). apply in_map_iff in Hl as (e' & <- & He'). apply changed_in in Hu' as [E2 _].
    destruct u as [[[k v] t] r], u' as [[[k' v'] t'] r']. cbn [fst] in *. subst. apply key_lt. apply (proj1 (Forall_forall _ _) HF). apply in_map; auto.
Qed.
Lemma changed_other P todo (k : K) (v : V) (t : T) : ~ In k (map fst todo) -> acc (D:=K*V) (concat (map (changed P) todo)) (k, v) t = 0%Z.
Proof.
  intros H. induction todo as [|e todo IH]; auto. cbn [map concat]. rewrite acc_app, IH; [|intros Hi; apply H; right; auto]. cbn [dplus Diff_Z]. rewrite Z.add_0_r.
  assert (Hall : forall u, In u (changed P e) -> fst (fst (fst u)) <> k) by (intros u Hu; apply changed_in in Hu as [-> _]; intros E; apply H; left; auto).
  induction (changed P e) as [|u us IHu]; auto. rewrite acc_cons. destruct (eqb_spec (fst (fst u)) (k, v)) as [E|E]; [destruct (Hall u (or_introl eq_refl)); rewrite E; auto|].
  cbn [andb]. apply IHu. intros u' Hu'. apply Hall. right; auto.
Qed.
Lemma changed_acc P todo (k : K) l (v : V) (t : T) : strictly_sorted (map fst todo) -> In (k, l) todo ->
  acc (D:=K*V) (concat (map (changed P) todo)) (k, v) t = (ind (cur (tidy l) (P k) t) v - ind (P k) v)%Z.
Proof.
  induction todo as [|e todo IH]; intros HS Hi; [destruct Hi|]. pose proof (strictly_sorted_nodup _ HS) as HN. cbn [map] in HS, HN. inversion HN as [|? ? Hn _]; subst. apply strictly_sorted_cons_inv in HS as [HS HF].
  cbn [map concat]. rewrite acc_app. cbn [dplus Diff_Z]. destruct Hi as [->|Hi].
  - rewrite changed_other by exact Hn. rewrite Z.add_0_r. unfold changed. rewrite (acc_perm _ _ _ _ (isort_perm (A:=K*V*T) _)). cbn [fst snd]. apply changes_acc, tidy_ok.
  - rewrite IH by auto. pose proof (changed_other P [e] k v t) as H0. cbn [map concat] in H0. rewrite app_nil_r in H0. rewrite H0; auto. intros [E|[]]. apply Hn. rewrite E. change k with (fst (k, l)). apply in_map; auto.
Qed.

(** ** The whole *)
Definition done (F : list T) (us : list (K * option V * T)) := filter (fun u => negb (beyondb F (snd u))) us.
Definition todo (F : list T) (us : list (K * option V * T)) := filter (fun u => beyondb F (snd u)) us.
Definition entry_ok (x : B * option T) : Prop :=
  Forall (fun u => beyond (lower_of ops (fst x)) (time_of u) /\ ~ beyond (upper_of ops (fst x)) (time_of u)) (contents (fst x)) /\
  match snd x with
  | Some c => beyond (lower_of ops (fst x)) c /\ ~ beyond (upper_of ops (fst x)) c /\ Forall (fun u => tle c (time_of u) = true) (contents (fst x))
  | None => contents (fst x) = []
  end.
Record held (st : ustate K V T) (F : list T) (recv : list (K * option V * T)) : Prop := {
  he_sorted : q_sorted (us_queue st);
  he_queue : Permutation (us_queue st) (map as_upsert (todo F recv));
  he_caps : antichain (us_caps st);
  he_beyond : Forall (beyond F) (us_caps st);
  he_cover : Forall (fun u => beyond (us_caps st) (fst (fst u))) (us_queue st)
}.
Record uinv (uw : uworld) : Prop := {
  ui_trace : w_inv (uw_trace uw) (map fst (uw_log uw));
  ui_writer : exists up, w_writer (uw_trace uw) = Some up /\ same_future up (uw_front uw);
  ui_own : own (uw_trace uw) (uw_front uw);
  ui_prev : antichain (us_prev (uw_op uw)) /\ same_future (us_prev (uw_op uw)) (uw_front uw);
  ui_flight : Forall (fun m => beyond (uw_front uw) (fst m) /\ Forall (fun u => tle (fst m) (snd u) = true) (snd m)) (uw_flight uw);
  ui_held : held (uw_op uw) (uw_front uw) (uw_received uw);
  ui_val : forall k v t, acc (D:=K*V) (flat_map contents (map fst (uw_log uw))) (k, v) t = ind (val_of (done (uw_front uw) (uw_received uw)) k t) v;
  ui_log : Forall entry_ok (uw_log uw);
  ui_out : uw_out uw = sent_of (uw_log uw)
}.

Lemma receive_ok F msgs : forall st recv, held st F recv ->
  Forall (fun m => beyond F (fst m) /\ Forall (fun u => tle (fst m) (snd u) = true) (snd m)) msgs ->
  held (fold_left u_receive msgs st) F (recv ++ flat_map snd msgs) /\ us_prev (fold_left u_receive msgs st) = us_prev st.
Proof.
  induction msgs as [|[c us] msgs IH]; intros st recv H HM; cbn [fold_left flat_map]; [rewrite app_nil_r; auto|]. inversion HM as [|? ? [H1 H2] HM']; subst. cbn [fst snd] in *.
  assert (Hb : forall u, In u us -> beyond F (snd u)) by (intros u Hu; apply (beyond_mono _ c); auto; apply (proj1 (Forall_forall _ _) H2 u Hu)).
  destruct (stash_ok us (us_queue st) (he_sorted _ _ _ H)) as [S1 S2].
  destruct (IH (u_receive st (c, us)) (recv ++ us)) as [J1 J2]; auto.
  - constructor; cbn [u_receive us_queue us_caps fst snd].
    + exact S1.
    + rewrite S2, (he_queue _ _ _ H). unfold todo. rewrite filter_app, map_app. apply Permutation_app_head. replace (filter (fun u : K * option V * T => beyondb F (snd u)) us) with us; auto.
      clear - Hb. induction us as [|u us IH]; auto. cbn [filter]. replace (beyondb F (snd u)) with true by (symmetry; apply beyondb_spec, Hb; left; auto). f_equal. apply IH. intros x Hx. apply Hb. right; auto.
    + apply ac_insert_antichain, H.
    + apply Forall_forall. intros t Ht. apply ac_insert_incl in Ht as [Ht| ->]; auto. apply (proj1 (Forall_forall _ _) (he_beyond _ _ _ H) t Ht).
    + eapply Permutation_Forall; [symmetry; exact S2|]. apply Forall_app. split.
      * eapply Forall_impl; [|apply (he_cover _ _ _ H)]. intros u Hu. apply ac_insert_beyond. auto.
      * apply Forall_forall. intros u Hu. apply in_map_iff in Hu as (u' & <- & Hu). cbn. apply ac_insert_beyond. right. apply (proj1 (Forall_forall _ _) H2 u' Hu).
  - rewrite <- app_assoc in J1. split; auto.
Qed.

(** what is learnt from one batch of changes *)
Lemma fill_ok w h F F' recv c m' d : w_inv w h -> own w F -> (exists f, In f F) -> 
  (forall k v t, acc (D:=K*V) (flat_map contents h) (k, v) t = ind (val_of (done F recv) k t) v) ->
  strictly_sorted (map fst m') -> Permutation (entries m') (filter (fun u => negb (beyondb F' (fst (fst u)))) (map as_upsert (todo F recv))) ->
  (forall t, beyond F' t -> beyond F t) -> (forall u, In u (todo F recv) -> tle c (snd u) = true) ->
  exists bx tbs tc pushed, w_box w = Some bx /\ batches_through ops (bx_trace bx) [] = Some tbs /\ cursor_list cops new tbs = Some tc /\
    u_keys cops (sum_len (b_len ops) tbs) tbs tc m' = Some pushed /\
    bl_ok _ _ laws (build pushed d) /\ b_desc ops (build pushed d) = d /\ consolidated (A:=K*V*T) (contents (build pushed d)) /\
    Forall (fun u => beyond F (time_of u) /\ ~ beyond F' (time_of u) /\ tle c (time_of u) = true) (contents (build pushed d)) /\
    (forall k v t, acc (D:=K*V) (flat_map contents h ++ contents (build pushed d)) (k, v) t = ind (val_of (done F' recv) k t) v).
Proof.
  intros I (a & Ha & HL & HP) (f & Hf) HV HS Hm HFF Hc. destruct (own_box w h a I Ha) as (bx & Eb & [B1 B2 (n & Sv)] & Hlive). exists bx.
  assert (HLb : forall t, beyond F t -> beyond (ma_frontier (bx_logical bx)) t).
  { intros t Ht. apply (holds_frontier _ _ B1 t). exists (ag_logical a). split; [apply in_map; auto|apply HL; auto]. }
  assert (Hne : ma_frontier (bx_logical bx) <> []) by (intros E0; specialize (HLb f (beyond_in _ _ Hf)); rewrite E0 in HLb; destruct (beyond_nil _ HLb)).
  destruct (batches_through_all ops contents laws _ _ _ _ _ _ Sv Hne) as (tbs & Et & Hsame & Hok). exists tbs.
  destruct (cursor_list_no_seek ops contents laws cops new HR tbs Hok) as (tc & Ec & Hpres). exists tc.
  destruct (upper_bound (f :: map snd recv ++ map time_of (flat (union_trie (tries contents tbs))))) as (tb & Htb).
  assert (HbL : beyond F tb) by (exists f; split; auto; apply Htb; left; auto).
  assert (Hdone : forall k o s, In (k, o, s) (done F recv) -> tle s tb = true).
  { intros k o s Hi. apply Htb. right. apply in_or_app. left. apply filter_In in Hi as [Hi _]. change s with (snd (k, o, s)). apply in_map; auto. }
  set (P := fun k => val_of (done F recv) k tb).
  assert (Hacc : forall k v, acc (D:=K*V) (flat_map contents tbs) (k, v) tb = ind (P k) v) by (intros k v; rewrite (Hsame (k, v) tb (HLb tb HbL)); apply HV).
  exists (map (changed P) m').
  assert (Ek : u_keys cops (sum_len (b_len ops) tbs) tbs tc m' = Some (map (changed P) m')).
  { apply (keys_ok contents cops tbs _ P) with (j := 0) (jv := 0).
    - intros k vs v ts Hk Hv. rewrite <- Hacc. apply (union_total contents tbs k vs); auto. apply Forall_forall. intros u Hu. apply Htb. right. apply in_or_app. right. apply in_map; auto.
    - intros k v E. apply (union_has contents tbs k v tb). rewrite Hacc, E. cbn [ind]. rewrite eqb_refl. discriminate.
    - rewrite (sum_len_contents ops contents laws tbs Hok). apply (union_length contents tbs).
    - exact HS.
    - apply shows_start. exact Hpres.
    - intros n0 k Hn. lia. }
  destruct (HB (map (changed P) m') d (changed_consolidated P m' HS)) as (Bo & Bc & Bd). rewrite Bc.
  split; [exact Eb|split; [exact Et|split; [exact Ec|split; [exact Ek|split; [exact Bo|split; [exact Bd|split; [apply changed_consolidated; auto|split]]]]]]].
  - apply Forall_forall. intros u Hu. apply in_concat in Hu as (l & Hl & Hu). apply in_map_iff in Hl as ([k l'] & <- & He). apply changed_in in Hu as [E1 E2]. cbn [fst snd] in *.
    apply in_map_iff in E2 as ([s o] & Es & Hso). cbn [fst] in Es. apply (in_entries m' k l' s o HS He) in Hso. apply (Permutation_in _ Hm) in Hso. apply filter_In in Hso as [H1 H2]. cbn [fst] in H2.
    apply in_map_iff in H1 as (u0 & E0 & H1). unfold as_upsert in E0. inversion E0. unfold time_of. rewrite <- Es, <- H0. rewrite <- H0 in H2. pose proof (Hc u0 H1) as Hcu. apply filter_In in H1 as [_ H1].
    split; [apply beyondb_spec; auto|split; [|auto]]. apply negb_true_iff, beyondb_false in H2. auto.
  - intros k v t. rewrite acc_app, HV. cbn [dplus Diff_Z].
    set (mid := filter (fun u => beyondb F (snd u) && negb (beyondb F' (snd u))) recv).
    assert (Hmid : forall s o, In (s, k, o) (entries m') <-> In (k, o, s) mid).
    { intros s o. split; intros H.
      - apply (Permutation_in _ Hm) in H. apply filter_In in H as [H1 H2]. apply in_map_iff in H1 as ([[k0 o0] s0] & E0 & H1). cbn in E0. inversion E0; subst. apply filter_In in H1 as [H1 H3]. cbn [fst snd] in *. apply filter_In. split; auto. cbn [snd]. rewrite H3, H2. auto.
      - apply (Permutation_in _ (Permutation_sym Hm)). apply filter_In in H as [H1 H2]. cbn [snd] in H2. apply andb_true_iff in H2 as [H2 H3]. apply filter_In. split; [|exact H3]. apply in_map_iff. exists (k, o, s). split; auto. apply filter_In. auto. }
    assert (Hlk : exists l, (forall s o, In (s, o) l <-> In (k, o, s) mid) /\ acc (D:=K*V) (concat (map (changed P) m')) (k, v) t = (ind (cur (tidy l) (P k) t) v - ind (P k) v)%Z).
    { destruct (in_dec eq_dec k (map fst m')) as [Hi|Hi].
      - apply in_map_iff in Hi as ([k0 l] & E0 & Hi). cbn in E0. subst k0. exists l. split; [|apply changed_acc; auto]. intros s o. rewrite (in_entries m' k l s o HS Hi). apply Hmid.
      - exists []. split; [|rewrite changed_other by auto; cbn; lia]. intros s o. split; [intros []|]. intros H. apply Hmid in H. unfold entries in H. apply in_flat_map in H as ([k0 l] & H1 & H2). apply in_map_iff in H2 as (x & Ex & _). inversion Ex; subst.
        apply Hi. change k with (fst (k, l)). apply in_map; auto. }
    destruct Hlk as (l & Hl & ->).
    assert (Hsep : forall s s' o o', In (k, o, s) (done F recv) -> In (k, o', s') mid -> lt s s').
    { intros s s' o o' H1 H2. apply filter_In in H1 as [_ H1]. apply filter_In in H2 as [_ H2]. cbn [snd] in *. apply andb_true_iff in H2 as [H2 _]. apply negb_true_iff, beyondb_false in H1. apply beyondb_spec in H2.
      apply (total_beyond F s' s); auto. }
    pose proof (value_layers (done F recv) mid k t l (val_of_spec _ _ _) Hl Hsep) as HV2.
    assert (E2 : val_of (done F' recv) k t = cur (tidy l) (val_of (done F recv) k t) t).
    { apply (value_unique (done F' recv) k t); [apply val_of_spec|]. eapply value_same; [|exact HV2]. intros o' s _. rewrite in_app_iff. unfold done, mid. rewrite !filter_In. cbn [snd].
      assert (Hx : beyondb F s = false -> beyondb F' s = true -> False) by (intros E1 E3; apply beyondb_spec, HFF, beyondb_spec in E3; congruence).
      destruct (beyondb F s), (beyondb F' s); cbn [negb andb]; intuition discriminate. }
    rewrite E2. destruct (tidy_ok l) as (T1 & T2 & T3). destruct (cur_spec (tidy l) T1 (P k) t) as [(s & H1 & H2 & H3)|[-> H]].
    + (* some upsert has taken effect: all earlier ones have *)
      assert (Hs : beyond F s). { destruct (T2 _ _ H1) as [H4 _]. apply Hl in H4. apply filter_In in H4 as [_ H4]. cbn [snd] in H4. apply andb_true_iff in H4 as [H4 _]. apply beyondb_spec; auto. }
      assert (EP : val_of (done F recv) k t = P k).
      { apply (value_unique (done F recv) k t); [apply val_of_spec|]. apply (value_late (done F recv) k tb t); [|apply val_of_spec]. intros o' s' Hi. split; [eapply Hdone; eauto|].
        apply filter_In in Hi as [_ Hi]. cbn [snd] in Hi. apply negb_true_iff, beyondb_false in Hi. eapply tle_trans; [apply (total_beyond F s s'); auto|auto]. }
      rewrite EP. lia.
    + assert (Hcur : forall q, cur (tidy l) q t = q). { intros q. apply cur_late. apply Forall_forall. intros [s o] Hi. cbn [fst]. eapply H; eauto. }
      rewrite Hcur. lia.
Qed.

Lemma antichain_total (F : list T) : antichain F -> F = [] \/ exists f, F = [f].
Proof.
  intros H. destruct F as [|f [|g F]]; [auto|right; eauto|]. exfalso. inversion H as [|? ? Hf _]; subst. destruct (Hf g (or_introl eq_refl)) as [H1 H2]. destruct (tle_total f g); congruence.
Qed.

Lemma activate_ok uw msgs q' F' answer : uinv uw -> u_may_deliver (uw_flight uw) (uw_front uw) msgs q' F' ->
  exists st' w' outs bs, u_activate ops cops new build msgs F' answer (uw_op uw) (uw_trace uw) = Some (st', w', outs, bs) /\
    uinv {| uw_trace := w'; uw_op := st'; uw_flight := q'; uw_front := F'; uw_received := uw_received uw ++ flat_map snd msgs;
            uw_log := uw_log uw ++ bs; uw_out := uw_out uw ++ outs |}.
Proof.
  intros I (HPm & HF & Hle & Hrest). destruct uw as [w st q F recv log out]. destruct I as [IT (up & Hw & Hup) IO [Hpa Hp] IF IH IV IL IOut]. cbn [uw_trace uw_op uw_flight uw_front uw_received uw_log uw_out] in *.
  apply (Permutation_Forall HPm) in IF. apply Forall_app in IF as [IFm IFr].
  destruct (receive_ok F msgs st recv IH IFm) as [H1 Ep]. unfold u_activate. set (st1 := fold_left u_receive msgs st) in *. set (recv1 := recv ++ flat_map snd msgs) in *. rewrite Ep.
  replace (ac_le (us_prev st) F') with true by (symmetry; apply ac_le_spec; intros t Ht; apply Hp, Hle, Ht). cbn [negb].
  assert (Hnew : forall u, In u (flat_map snd msgs) -> beyond F (snd u)).
  { intros u Hu. apply in_flat_map in Hu as (m & Hm & Hu). destruct (proj1 (Forall_forall _ _) IFm m Hm) as [H2 H3]. apply (beyond_mono _ (fst m)); auto. apply (proj1 (Forall_forall _ _) H3 u Hu). }
  assert (Hdone : done F recv1 = done F recv).
  { unfold done, recv1. rewrite filter_app. replace (filter (fun u : K * option V * T => negb (beyondb F (snd u))) (flat_map snd msgs)) with (@nil (K * option V * T)); [apply app_nil_r|].
    clear - Hnew. induction (flat_map snd msgs) as [|u us IHu]; auto. cbn [filter]. replace (beyondb F (snd u)) with true by (symmetry; apply beyondb_spec, Hnew; left; auto). cbn [negb]. apply IHu. intros x Hx. apply Hnew. right; auto. }
  assert (IV1 : forall k v t, acc (D:=K*V) (flat_map contents (map fst log)) (k, v) t = ind (val_of (done F recv1) k t) v) by (rewrite Hdone; exact IV).
  assert (Hq : Forall (fun m => beyond F' (fst m) /\ Forall (fun u => tle (fst m) (snd u) = true) (snd m)) q').
  { apply Forall_forall. intros m Hm. split; [apply (proj1 (Forall_forall _ _) Hrest m Hm)|apply (proj1 (Forall_forall _ _) IFr m Hm)]. }
  assert (HWork : exists st2 w2 outs bs, u_work ops cops new build F' st1 w = Some (st2, w2, outs, bs) /\
     w_inv w2 (map fst log ++ map fst bs) /\ (exists up, w_writer w2 = Some up /\ same_future up F') /\ own w2 F' /\
     antichain (us_prev st2) /\ same_future (us_prev st2) F' /\ held st2 F' recv1 /\
     (forall k v t, acc (D:=K*V) (flat_map contents (map fst log ++ map fst bs)) (k, v) t = ind (val_of (done F' recv1) k t) v) /\ Forall entry_ok bs /\ outs = sent_of bs).
  2:{ destruct HWork as (st2 & w2 & outs & bs & E2 & J1 & (up2 & Jw & Ju) & J3 & J4 & J5 & J6 & J7 & J8 & J9). rewrite E2.
      destruct (exert_own w2 _ F' answer J1 J3) as (w3 & E3 & K1 & K2 & K3). rewrite E3, app_nil_r. eexists _, _, _, _. split; [reflexivity|].
      constructor; cbn [uw_trace uw_op uw_flight uw_front uw_received uw_log uw_out]; auto.
      - rewrite map_app. exact K1.
      - exists up2. rewrite K2. auto.
      - rewrite map_app. exact J7.
      - apply Forall_app. auto.
      - rewrite sent_app, IOut, J9. auto. }
  unfold u_work. rewrite Ep. destruct (ac_eqb (us_prev st) F') eqn:Eq; cbn [negb].
  - assert (HS : same_future F F') by (apply ac_eqb_spec in Eq; auto; intros t; rewrite <- (Hp t); apply Eq).
    exists st1, w, [], []. split; [reflexivity|]. cbn [map]. rewrite app_nil_r.
    assert (Hbb : forall t, beyondb F' t = beyondb F t) by (intros t; symmetry; apply beyondb_same; auto).
    split; [exact IT|split; [exists up; split; [auto|intros t; rewrite (Hup t); apply HS]|split]].
    + destruct IO as (a & Ha & H2 & H3). exists a. split; [auto|split; intros t; [rewrite (H2 t)|rewrite (H3 t)]; apply HS].
    + rewrite Ep. split; [auto|split; [intros t; rewrite (Hp t); apply HS|split; [|split; [|auto]]]].
      * destruct H1 as [G1 G2 G3 G4 G5]. constructor; auto.
        -- rewrite G2. unfold todo. apply Permutation_map. erewrite filter_ext; [apply Permutation_refl|]. intros u. cbn. symmetry. apply Hbb.
        -- eapply Forall_impl; [|exact G4]. intros t. apply HS.
      * intros k v t. rewrite IV1. f_equal. f_equal. unfold done. apply filter_ext. intros u. rewrite Hbb. auto.
  - assert (HnS : ~ same_future F F') by (intros H; assert (ac_eqb (us_prev st) F' = true); [apply ac_eqb_spec; auto; intros t; rewrite (Hp t); apply H|congruence]).
    assert (HFne : exists f, In f F).
    { destruct F as [|f F0]; [|exists f; left; auto]. exfalso. apply HnS. intros t. split; intros Ht; [destruct (beyond_nil _ Ht)|auto]. }
    assert (HaF : antichain (ac_extend [] F')) by (apply ac_extend_antichain; constructor).
    assert (HsF : same_future (ac_extend [] F') F') by (exact (ac_from_beyond F')).
    (* the last step: the handle follows *)
    assert (Hfin : forall w2 h2, w_inv w2 h2 -> own w2 F -> exists w3 w4, w_step ops w2 (CSetLogical 0 (ac_extend [] F')) = Some (w3, []) /\ w_step ops w3 (CSetPhysical 0 (ac_extend [] F')) = Some (w4, []) /\
        w_inv w4 h2 /\ w_writer w4 = w_writer w2 /\ own w4 F').
    { intros w2 h2 I2 (a & Ha & H2 & H3). destruct (set_logical_own w2 h2 a (ac_extend [] F') I2 Ha) as (w3 & E3 & I3 & W3 & A3). destruct (set_physical_own w3 h2 _ (ac_extend [] F') I3 A3) as (w4 & E4 & I4 & W4 & A4).
      exists w3, w4. split; [exact E3|split; [exact E4|split; [exact I4|split; [congruence|]]]]. eexists. split; [exact A4|]. cbn [ag_logical ag_physical]. split; intros t; rewrite antichain_join_beyond, (HsF t).
      - rewrite (H2 t). split; [tauto|]. intros H; split; auto.
      - rewrite (H3 t). split; [tauto|]. intros H; split; auto. }
    destruct (existsb (fun c => negb (ac_less_equal F' c)) (us_caps st1)) eqn:Ex.
    + apply existsb_exists in Ex as (c & Hc & Hnc). apply negb_true_iff in Hnc.
      destruct (antichain_total _ (he_caps _ _ _ H1)) as [E0|(c0 & E0)]; [rewrite E0 in Hc; destruct Hc|]. rewrite E0 in Hc. destruct Hc as [->|[]]. rewrite E0.
      cbn [u_commit]. rewrite Hnc. cbn [negb]. change (ac_extend (ac_extend [] F') []) with (ac_extend [] F'). set (upper := ac_extend [] F') in *.
      pose proof Hnc as Hnc'. apply ac_less_equal_false in Hnc'.
      destruct (extract_ok upper (us_queue st1) [] (he_sorted _ _ _ H1)) as (m' & Em & Sm & Pm); [constructor|]. cbn [entries flat_map app] in Pm. rewrite Em.
      assert (Hb' : forall t, beyondb upper t = beyondb F' t) by (intros t; apply beyondb_same; auto).
      set (d := {| d_lower := us_prev st; d_upper := upper; d_since := [tmin] |} : Description T).
      assert (Pm' : Permutation (entries m') (filter (fun u => negb (beyondb F' (fst (fst u)))) (map as_upsert (todo F recv1)))).
      { rewrite Pm. rewrite (filter_ext _ (fun u => negb (beyondb F' (fst (fst u))))) by (intros u; rewrite Hb'; auto). apply Permutation_filter, (he_queue _ _ _ H1). }
      assert (Hcov : forall u, In u (todo F recv1) -> tle c (snd u) = true).
      { intros u Hu. assert (Hi : In (as_upsert u) (us_queue st1)) by (eapply Permutation_in; [symmetry; apply (he_queue _ _ _ H1)|apply in_map; auto]).
        pose proof (proj1 (Forall_forall _ _) (he_cover _ _ _ H1) _ Hi) as Hbc. rewrite E0 in Hbc. destruct Hbc as (x & [<-|[]] & Hx). exact Hx. }
      destruct (fill_ok w (map fst log) F F' recv1 c m' d IT IO HFne IV1 Sm Pm' Hle Hcov) as (bx & tbs & tc & pushed & X1 & X2 & X3 & X4 & X5 & X6 & X7 & X8 & X9).
      rewrite X1, X2, X3, X4.
      assert (Ed : desc_new (us_prev st) upper [tmin] = Some d).
      { unfold desc_new. destruct (us_prev st) as [|p0 ps] eqn:Eps; [|reflexivity]. exfalso. destruct HFne as (f & Hf). apply (beyond_nil (T:=T) f). apply Hp, beyond_in, Hf. }
      rewrite Ed. cbn [w_step]. rewrite Hw.
      assert (El : lower_of ops (build pushed d) = us_prev st) by (unfold BatchLaws.lower_of; rewrite X6; auto).
      assert (Eu : upper_of ops (build pushed d) = upper) by (unfold BatchLaws.upper_of; rewrite X6; auto).
      assert (Es : since_of ops (build pushed d) = [tmin]) by (unfold BatchLaws.since_of; rewrite X6; auto).
      assert (Hbc : beyond F c) by (apply (proj1 (Forall_forall _ _) (he_beyond _ _ _ H1)); rewrite E0; left; auto).
      assert (Pb : proper ops contents laws (build pushed d)).
      { constructor; rewrite ?El, ?Eu; auto. - intros E9. destruct HFne as (f & Hf). apply (beyond_nil (T:=T) f). rewrite <- E9. apply Hp, beyond_in, Hf. - intros t Ht. apply Hp, Hle, HsF, Ht. - intros HS. apply Hnc', HsF, HS, Hp, Hbc. }
      destruct (insert_ok ops contents laws w _ up (build pushed d) (Some c) IT Hw Pb) as (w1 & Ew & I1 & Hw1 & Ha1 & _).
      { rewrite El. intros t. rewrite (Hup t). apply Hp. } { intros t. rewrite Es. exists tmin. split; [left; auto|apply tmin_le]. }
      rewrite Ew.
      assert (Ecaps : exists caps, u_downgrade [c] (filter (fun u => beyondb upper (fst (fst u))) (us_queue st1)) = Some caps /\ antichain caps /\ Forall (beyond F') caps /\
         Forall (fun u => beyond caps (fst (fst u))) (filter (fun u => beyondb upper (fst (fst u))) (us_queue st1))).
      { destruct (filter (fun u => beyondb upper (fst (fst u))) (us_queue st1)) as [|[[t k] o] qq] eqn:Eqq; cbn [u_downgrade]; [exists []; repeat split; constructor|].
        assert (Hi : In (t, k, o) (filter (fun u => beyondb upper (fst (fst u))) (us_queue st1))) by (rewrite Eqq; left; auto). apply filter_In in Hi as [Hi Hb]. cbn [fst] in Hb. rewrite Hb' in Hb. apply beyondb_spec in Hb.
        pose proof (proj1 (Forall_forall _ _) (he_cover _ _ _ H1) _ Hi) as Hbq. rewrite E0 in Hbq. destruct Hbq as (x & [<-|[]] & Hx). cbn [fst] in Hx. cbn [find]. rewrite Hx. exists [t].
        split; [reflexivity|split; [apply (ac_from_antichain [t])|split; [constructor; auto|]]].
        assert (HSq : q_sorted (filter (fun u => beyondb upper (fst (fst u))) (us_queue st1))).
        { pose proof (he_sorted _ _ _ H1) as HS0. clear - HS0. unfold q_sorted in *. induction HS0 as [|x l HS0 IHs HFx]; cbn [filter]; [constructor|]. destruct (beyondb upper (fst (fst x))); auto. constructor; auto.
          apply Forall_forall. intros y Hy. apply filter_In in Hy as [Hy _]. apply (proj1 (Forall_forall _ _) HFx y Hy). }
        rewrite Eqq in HSq. inversion HSq as [|? ? _ HFq]; subst. constructor; [exists t; split; [left; auto|apply tle_refl]|]. eapply Forall_impl; [|exact HFq]. intros u Hu. cbn in Hu. exists t. split; [left; auto|exact Hu]. }
      destruct Ecaps as (caps & Ec & C1 & C2 & C3). cbn [app]. rewrite Ec.
      assert (Own1 : own w1 F) by (destruct IO as (a & Ha & Hr); exists a; split; auto; unfold agent_at in *; rewrite Ha1; auto).
      destruct (Hfin w1 _ I1 Own1) as (w3 & w4 & E3 & E4 & I4 & W4 & O4). cbn [w_step] in E3, E4 |- *. rewrite E3, E4.
      eexists _, _, _, _. split; [reflexivity|]. cbn [us_prev app map fst].
      split; [exact I4|split; [exists upper; split; [rewrite W4, Hw1, Eu; auto|exact HsF]|split; [exact O4|split; [exact HaF|split; [exact HsF|split; [|split; [|split; [|reflexivity]]]]]]]].
      * constructor; cbn [us_queue us_caps]; auto.
        -- pose proof (he_sorted _ _ _ H1) as HS0. clear - HS0. unfold q_sorted in *. induction HS0 as [|x l HS0 IHs HFx]; cbn [filter]; [constructor|]. destruct (beyondb upper (fst (fst x))); auto. constructor; auto.
           apply Forall_forall. intros y Hy. apply filter_In in Hy as [Hy _]. apply (proj1 (Forall_forall _ _) HFx y Hy).
        -- rewrite (filter_ext _ (fun u => beyondb F' (fst (fst u)))) by (intros u; apply Hb'). rewrite (Permutation_filter (fun u => beyondb F' (fst (fst u))) _ _ (he_queue _ _ _ H1)).
           unfold todo. clear - Hle. induction recv1 as [|u us IHu]; [constructor|]. cbn [filter]. destruct (beyondb F (snd u)) eqn:E1; cbn [map filter as_upsert fst snd].
           ++ destruct (beyondb F' (snd u)); cbn [map]; auto.
           ++ destruct (beyondb F' (snd u)) eqn:E2; auto. apply beyondb_spec, Hle, beyondb_spec in E2. congruence.
      * intros k v t. rewrite flat_map_app. cbn [flat_map]. rewrite app_nil_r. apply X9.
      * constructor; [|constructor]. unfold entry_ok. cbn [fst snd]. rewrite El, Eu. split; [|split; [apply Hp; auto|split; [intros H; apply Hnc', HsF, H|]]].
        -- eapply Forall_impl; [|exact X8]. intros u (Y1 & Y2 & _). split; [apply Hp; auto|]. intros H. apply Y2, HsF, H.
        -- eapply Forall_impl; [|exact X8]. intros u (_ & _ & Y3). exact Y3.
    + assert (Hall : forall c, In c (us_caps st1) -> beyond F' c).
      { intros c Hc. destruct (ac_less_equal F' c) eqn:Ef; [apply ac_less_equal_spec; auto|]. assert (existsb (fun c => negb (ac_less_equal F' c)) (us_caps st1) = true) by (apply existsb_exists; exists c; rewrite Ef; auto). congruence. }
      cbn [w_step]. rewrite Hw. destruct (seal_ok ops contents laws w (map fst log) up F' IT Hw HF) as (w1 & bs & E1 & I1 & W1 & A1 & Hbs & _). { intros t Ht. apply Hup, Hle, Ht. }
      rewrite E1. assert (Own1 : own w1 F) by (destruct IO as (a & Ha & Hr); exists a; split; auto; unfold agent_at in *; rewrite A1; auto).
      destruct (Hfin w1 _ I1 Own1) as (w3 & w4 & E3 & E4 & I4 & W4 & O4). cbn [w_step] in E3, E4 |- *. rewrite E3, E4. rewrite !app_nil_r.
      eexists _, _, _, _. split; [reflexivity|]. cbn [us_prev].
      assert (Hcov : forall u, In u (todo F recv1) -> beyond F' (snd u)).
      { intros u Hu. assert (Hi : In (as_upsert u) (us_queue st1)) by (eapply Permutation_in; [symmetry; apply (he_queue _ _ _ H1)|apply in_map; auto]).
        destruct (proj1 (Forall_forall _ _) (he_cover _ _ _ H1) _ Hi) as (x & Hx & Hxu). apply (beyond_mono _ x); auto. }
      assert (Hsame : forall u, In u recv1 -> beyondb F' (snd u) = beyondb F (snd u)).
      { intros u Hu. destruct (beyondb F (snd u)) eqn:E2.
        - apply beyondb_spec, Hcov. apply filter_In. auto.
        - apply beyondb_false. intros H. apply Hle, beyondb_spec in H. congruence. }
      split; [exact I4|split; [|split; [exact O4|split; [exact HaF|split; [exact HsF|split; [|split; [|split]]]]]]].
      * rewrite W4, W1. destruct (ac_eqb up F') eqn:Eup; [|exists F'; split; [auto|intros t; tauto]]. exfalso. apply HnS. apply ac_eqb_spec in Eup; auto; [intros t; rewrite <- (Hup t); apply Eup|].
        pose proof (wi_upper _ _ _ _ _ IT) as Hwu. unfold w_upper in Hwu. rewrite Hw in Hwu. exact Hwu.
      * destruct H1 as [G1 G2 G3 G4 G5]. constructor; cbn [us_queue us_caps]; auto.
        -- rewrite G2. unfold todo. apply Permutation_map. rewrite (filter_ext_in _ (fun u => beyondb F' (snd u))); [apply Permutation_refl|]. intros u Hu. symmetry. apply Hsame; auto.
        -- apply Forall_forall. auto.
      * intros k v t. rewrite flat_map_app, acc_app, IV1. rewrite (empty_acc (map fst bs)).
        -- cbn [dplus dzero Diff_Z]. rewrite Z.add_0_r. f_equal. f_equal. unfold done. apply filter_ext_in. intros u Hu. rewrite Hsame; auto.
        -- intros b Hb. apply in_map_iff in Hb as (x & <- & Hx). apply (Hbs x Hx).
      * apply Forall_forall. intros x Hx. destruct (Hbs x Hx) as [Hc0 Hn0]. unfold entry_ok. rewrite Hn0, Hc0. split; auto.
      * assert (Hn : forall x, In x bs -> snd x = None) by (intros x Hx; apply (Hbs x Hx)). clear - Hn. unfold sent_of. induction bs as [|x bs IHb]; auto. cbn [flat_map]. rewrite (Hn x (or_introl eq_refl)). cbn [app]. apply IHb. intros y Hy. apply Hn. right; auto.
Qed.

Lemma start_ok e w : u_trace ops e = Some w -> uinv {| uw_trace := w; uw_op := u_start; uw_flight := []; uw_front := [tmin]; uw_received := []; uw_log := []; uw_out := [] |}.
Proof.
  unfold u_trace. intros E. destruct (w_step ops (world_new (with_effort e)) (CClone 0)) as [[w' bs]|] eqn:Es; [|discriminate]. inversion E; subst w'.
  destruct (fun H => reader_step ops contents laws (world_new (with_effort e)) [] (CClone 0) w bs (new_ok ops contents laws e) H Es) as (-> & I & Ew); [exact Logic.I|].
  assert (Ha : agent_at w 0 = agent_at (world_new (with_effort e)) 0) by (eapply (others_own _ (CClone 0)); [|split; exact Logic.I|exact Es]; discriminate).
  constructor; cbn [uw_trace uw_op uw_flight uw_front uw_received uw_log uw_out map u_start us_prev us_caps us_queue]; auto.
  - exists (ac_from [tmin]). split; [rewrite Ew; reflexivity|]. intros t. apply (ac_from_beyond [tmin] t).
  - eexists. split; [rewrite Ha; reflexivity|]. cbn [ag_logical ag_physical].
    assert (HH : forall t : T, beyond (ma_frontier (ma_update_iter [] (plus_one [tmin]))) t <-> beyond [tmin] t).
    { intros t. rewrite (holds_frontier _ [[tmin]]); [|intros x; reflexivity]. split; [intros (F & [<-|[]] & H); auto|intros H; exists [tmin]; split; [left; auto|auto]]. }
    split; exact HH.
  - split; [apply (ac_from_antichain [tmin])|intros t; tauto].
  - constructor; cbn [us_queue us_caps]; try constructor.
Qed.
Lemma ureaches_inv e uw : ureaches ops cops new build e uw -> uinv uw.
Proof.
  induction 1 as [w E|uw uw' _ IH HS]; [eapply start_ok; eauto|]. destruct HS as [w st q F r l o c us Hc Hus|w st q F r l o c w' bs Hc Es|w st q F r l o msgs q' F' answer st' w' outs bs HD E].
  - destruct IH. constructor; cbn [uw_trace uw_op uw_flight uw_front uw_received uw_log uw_out] in *; auto. apply Forall_app. split; auto.
  - destruct IH as [I1 (up & I2 & I2') (a & Ia & Ia') I4 I5 I6 I7 I8 I9]. cbn [uw_trace uw_op uw_flight uw_front uw_received uw_log uw_out] in *.
    destruct (reader_step ops contents laws _ _ _ _ _ I1 (proj1 Hc) Es) as (_ & J1 & J2). constructor; cbn [uw_trace uw_op uw_flight uw_front uw_received uw_log uw_out]; auto.
    + exists up. rewrite J2. auto.
    + exists a. split; auto. rewrite <- Ia. eapply others_own; [|exact Hc|exact Es]. destruct (own_box _ _ _ I1 Ia) as (bx & Eb & _). congruence.
  - destruct (activate_ok _ msgs q' F' answer IH HD) as (st2 & w2 & o2 & bs2 & E2 & I2). cbn [uw_trace uw_op uw_flight uw_front uw_received uw_log uw_out] in *. rewrite E in E2. inversion E2; subst. exact I2.
Qed.
Lemma trace_starts e : exists w, u_trace ops e = Some w.
Proof.
  destruct (AgentP.step_ok ops contents laws (world_new (with_effort e)) [] (CClone 0) (new_ok ops contents laws e) Logic.I) as (w & bs & E & _). exists w. unfold u_trace. rewrite E. reflexivity.
Qed.
End Operator.
