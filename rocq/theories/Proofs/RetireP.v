(** What retire does for an interval: the loop over keys, and the batches it makes. *)
From Coq Require Import Sorting.Sorted.
From Verif Require Export Proofs.ReduceKeyP Proofs.BilinearP Spec.ArrangeSpec Proofs.DescriptionP.
From Verif Require Import Base.Order.

(** ** Sorting the updates of a key *)
Section Sort.
Context {K V T R : Type} {OK : Ord K} {OV : Ord V} {TT : Time T} {DR : Diff R}.
Lemma value_insert_perm (x : V * T * R) l : Permutation (value_insert x l) (x :: l).
Proof. induction l as [|y l IH]; simpl; auto. destruct (leb _ _); auto. eapply perm_trans; [apply perm_skip, IH|apply perm_swap]. Qed.
Lemma value_sort_perm (l : list (V * T * R)) : Permutation (value_sort l) l.
Proof. induction l as [|x l IH]; auto. change (value_sort (x :: l)) with (value_insert x (value_sort l)). eapply perm_trans; [apply value_insert_perm|]. auto. Qed.
Lemma lt_vt (v v' : V) (t t' : T) : lt (v, t) (v', t') <-> lt v v' \/ (v = v' /\ lt t t').
Proof. apply lt_pair. Qed.
Lemma value_insert_sorted (x : V * T * R) l : strictly_sorted (map fst l) -> Forall (fun y => lt (snd (fst x), fst (fst x)) (snd (fst y), fst (fst y))) l ->
  strictly_sorted (map fst (value_insert x l)).
Proof.
  induction l as [|y l IH]; intros HS HF; [constructor|]. cbn [value_insert]. inversion HF as [|? ? Hy HF']; subst. destruct (leb (fst (fst x)) (fst (fst y))) eqn:E.
  - cbn [map]. simpl map in HS. constructor; auto. apply leb_le, le_lteq in E. destruct x as [[v t] r], y as [[v' t'] r']. simpl in *. apply lt_vt. destruct E as [E|E]; auto. right. split; auto.
    subst. apply lt_pair in Hy as [Hy|[_ Hy]]; auto. exfalso. apply (lt_irrefl _ Hy).
  - simpl map in HS. apply strictly_sorted_cons_inv in HS as [HS HL]. cbn [map]. apply strictly_sorted_cons; [apply IH; auto|].
    apply Forall_map. apply Forall_forall. intros z Hz. apply (Permutation_in _ (value_insert_perm x l)) in Hz. destruct Hz as [<-|Hz].
    + apply leb_gt in E. destruct x as [[v t] r], y as [[v' t'] r']. simpl in *. apply lt_vt. auto.
    + rewrite Forall_map, Forall_forall in HL. auto.
Qed.
Lemma value_sort_sorted (l : list (V * T * R)) : strictly_sorted (map (fun u => (snd (fst u), fst (fst u))) l) -> strictly_sorted (map fst (value_sort l)).
Proof.
  induction l as [|x l IH]; intros H; [constructor|]. simpl map in H. apply strictly_sorted_cons_inv in H as [H HF]. change (value_sort (x :: l)) with (value_insert x (value_sort l)).
  apply value_insert_sorted; auto. rewrite Forall_map in HF. rewrite Forall_forall in *. intros y Hy. apply HF. apply (Permutation_in _ (value_sort_perm l)), Hy.
Qed.
Lemma in_chunk (key : K) (us : list (V * T * R)) (u : K * V * T * R) : In u (chunk_of key us) <-> fst (fst (fst u)) = key /\ In (snd (fst (fst u)), snd (fst u), snd u) us.
Proof.
  unfold chunk_of. rewrite in_map_iff. split.
  - intros (x & <- & Hx). cbn [fst snd]. split; auto. apply (Permutation_in _ (value_sort_perm us)) in Hx. destruct x as [[v t] r]; auto.
  - intros [E H]. exists (snd (fst (fst u)), snd (fst u), snd u). cbn [fst snd]. split; [destruct u as [[[? ?] ?] ?]; simpl in *; subst; auto|].
    apply (Permutation_in _ (Permutation_sym (value_sort_perm us))), H.
Qed.
Lemma chunk_consolidated (key : K) (us : list (V * T * R)) : strictly_sorted (map (fun u => (snd (fst u), fst (fst u))) us) -> Forall (fun u => is_zero (snd u) = false) us ->
  consolidated (A:=K*V*T) (chunk_of key us).
Proof.
  intros HS HZ. split.
  - unfold chunk_of. rewrite map_map. cbn [fst]. pose proof (value_sort_sorted us HS) as S. clear - S. induction (value_sort us) as [|x l IH]; [constructor|].
    simpl map in *. apply strictly_sorted_cons_inv in S as [S HF]. apply strictly_sorted_cons; auto. rewrite Forall_map in *. eapply Forall_impl; [|exact HF].
    intros y Hy. cbv beta in *. destruct x as [[v t] r], y as [[v' t'] r']. cbn [fst snd] in *. apply lt_pair in Hy. apply lt_pair. destruct Hy as [Hy|[-> Hy]]; auto.
    left. apply lt_pair. auto.
  - rewrite Forall_forall in *. intros u Hu. apply in_chunk in Hu as [_ Hu]. apply (HZ _ Hu).
Qed.
Lemma acc_chunk (key : K) (us : list (V * T * R)) k v t : acc (chunk_of key us) (k, v) t = if eqb key k then acc us v t else dzero.
Proof.
  rewrite <- acc_of_key. destruct (eqb_spec key k) as [->|Hk].
  - rewrite <- (acc_perm _ _ v t (value_sort_perm us)). f_equal. unfold of_key, chunk_of. induction (value_sort us) as [|x l IH]; auto. simpl. rewrite eqb_refl. simpl. rewrite IH. destruct x as [[? ?] ?]; auto.
  - assert (E : of_key k (chunk_of key us) = []); [|rewrite E; auto]. destruct (of_key k (chunk_of key us)) as [|u l] eqn:E; auto. exfalso.
    assert (In u (of_key k (chunk_of key us))) as Hu by (rewrite E; left; auto). apply in_of_key in Hu. apply in_chunk in Hu as [Hu _]. auto.
Qed.
Lemma consolidated_keys (a b : list (K * V * T * R)) : consolidated (A:=K*V*T) a -> consolidated (A:=K*V*T) b ->
  (forall x y, In x a -> In y b -> lt (fst (fst (fst x))) (fst (fst (fst y)))) -> consolidated (A:=K*V*T) (a ++ b).
Proof.
  intros Ha Hb HL. apply consolidated_app. split; auto. split; auto. intros x y Hx Hy. specialize (HL x y Hx Hy). destruct x as [[[k v] t] r], y as [[[k' v'] t'] r']. simpl in *.
  apply lt_pair. left. apply lt_pair. auto.
Qed.
End Sort.

(** ** The pending times *)
Section Pending.
Context {K T : Type} {OK : Ord K} {OT : Ord T}.
Definition pend_of (k : K) (pending : list (K * T)) : list T := map snd (filter (fun kt => eqb (fst kt) k) pending).
Lemma in_pend_of k pending t : In t (pend_of k pending) <-> In (k, t) pending.
Proof.
  unfold pend_of. rewrite in_map_iff. split.
  - intros ([k' t'] & E & H). apply filter_In in H as [H E']. simpl in *. subst. destruct (eqb_spec k' k); [subst; auto|discriminate].
  - intros H. exists (k, t). split; auto. apply filter_In. split; auto. apply eqb_refl.
Qed.
Lemma take_key_ok key : forall pending : list (K * T), strictly_sorted pending -> (forall k t, In (k, t) pending -> le key k) ->
  exists mine rest, take_key key pending = (mine, rest) /\ pending = map (fun t => (key, t)) mine ++ rest /\ (forall k t, In (k, t) rest -> lt key k).
Proof.
  induction pending as [|[k t] pending IH]; intros HS HL; [exists [], []; split; auto; split; auto; intros k t []|].
  apply strictly_sorted_cons_inv in HS as [HS HF]. cbn [take_key]. destruct (eqb_spec k key) as [->|Hk].
  - destruct (IH HS) as (mine & rest & E & Ep & H); [intros; eapply HL; right; eauto|]. rewrite E. exists (t :: mine), rest. split; auto. split; [simpl; congruence|auto].
  - exists [], ((k, t) :: pending). split; auto. split; auto.
    assert (L : lt key k). { pose proof (HL k t (or_introl eq_refl)) as L. apply le_lteq in L as [L|L]; auto. congruence. }
    intros k' t' [E|H]; [inversion E; subst; auto|]. rewrite Forall_forall in HF. specialize (HF _ H). apply lt_pair in HF as [HF|[<- _]]; auto. eapply lt_trans; eauto.
Qed.
End Pending.

(** ** What goes where *)
Section Index.
Context {V T R : Type} {OV : Ord V} {TT : Time T} {DR : Diff R}.
Notation up := (V * T * R)%type.
Definition index_of (held : list T) (t : T) : option nat := last_position t (map (fun t => (t, @nil up)) held).
Lemma at_index_iff held i (u : up) : at_index held i u = true <-> index_of held (snd (fst u)) = Some i.
Proof.
  unfold at_index, index_of. destruct (last_position _ _) as [j|]; [|split; discriminate]. rewrite Nat.eqb_eq. split; congruence.
Qed.
Lemma index_bound held t i : index_of held t = Some i -> i < length held.
Proof.
  intros H. apply last_position_spec in H as [(x & l & H & _) _]. assert (nth_error (map (fun t => (t, @nil up)) held) i <> None) as Hn by congruence.
  apply nth_error_Some in Hn. rewrite map_length in Hn. auto.
Qed.
Lemma allots_acc held outs (l : list up) v t : allots held outs l -> Forall (fun u => exists i, index_of held (snd (fst u)) = Some i) l ->
  dsum (map (fun o => acc (snd o) v t) outs) = acc l v t.
Proof.
  intros [HF HN] HI.
  assert (E : map (fun o => acc (snd o) v t) outs = map (fun i => acc (filter (at_index held i) l) v t) (seq 0 (length held))).
  { assert (HL : length held = length outs) by (rewrite <- HF, map_length; auto). rewrite HL. clear HF HI HL. revert HN. generalize (at_index (V2:=V) (R2:=R) held) as f. intros f.
    assert (G : forall k, (forall i t us, nth_error outs i = Some (t, us) -> us = filter (f (k + i)) l) ->
       map (fun o => acc (snd o) v t) outs = map (fun i => acc (filter (f i) l) v t) (seq k (length outs))).
    { induction outs as [|[t0 us] outs IH]; intros k H; auto. cbn [map length seq snd]. f_equal.
      - rewrite (H 0 t0 us eq_refl), Nat.add_0_r. auto.
      - apply (IH (S k)). intros i t1 us1 Hn. rewrite (H (S i) t1 us1 Hn). f_equal. f_equal. lia. }
    intros HN. apply (G 0). exact HN. }
  rewrite E. clear E HF HN outs. induction HI as [|u l (i & Hi) _ IH].
  - simpl. induction (seq 0 (length held)) as [|x s IHs]; auto. simpl. rewrite IHs. apply dplus_0_l.
  - rewrite acc_cons', <- IH. pose proof (index_bound _ _ _ Hi) as Lt.
    assert (G : forall s, NoDup s -> dsum (map (fun j => acc (filter (at_index held j) (u :: l)) v t) s) =
      dplus (if in_dec Nat.eq_dec i s then acc [u] v t else dzero) (dsum (map (fun j => acc (filter (at_index held j) l) v t) s))).
    { induction 1 as [|j s Hj _ IHs]; [simpl; rewrite dplus_0_l; auto|]. cbn [map]. change (dsum (?x :: ?y)) with (dplus x (dsum y)). rewrite IHs.
      assert (Ef : acc (filter (at_index held j) (u :: l)) v t = dplus (if Nat.eq_dec i j then acc [u] v t else dzero) (acc (filter (at_index held j) l) v t)).
      { cbn [filter]. destruct (at_index held j u) eqn:Ea.
        - apply at_index_iff in Ea. assert (i = j) by congruence. destruct (Nat.eq_dec i j); [|congruence]. change (u :: ?y) with ([u] ++ y). rewrite acc_app. auto.
        - destruct (Nat.eq_dec i j) as [->|]; [|rewrite dplus_0_l; auto]. apply at_index_iff in Hi. congruence. }
      rewrite Ef. destruct (in_dec Nat.eq_dec i s) as [Hs|Hs], (in_dec Nat.eq_dec i (j :: s)) as [Hs'|Hs'], (Nat.eq_dec i j) as [Hij|Hij]; subst; try contradiction; try (exfalso; simpl in *; tauto); try (exfalso; destruct Hs' as [Hs'|Hs']; [congruence|contradiction]); rewrite ?dplus_0_l, ?dplus_0_r; dperm. }
    rewrite G by apply seq_NoDup. destruct (in_dec Nat.eq_dec i (seq 0 (length held))) as [_|Hn]; [|exfalso; apply Hn, in_seq; lia].
    f_equal. rewrite acc_cons', acc_nil, dplus_0_r. auto.
Qed.
End Index.

(** ** The loop over keys *)
Section Keys.
Context {B1 M1 C1 B2 M2 C2 K V1 V2 T R1 R2 : Type} {OK : Ord K} {OV1 : Ord V1} {OV2 : Ord V2} {TT : Time T} {D1 : Diff R1} {D2 : Diff R2} {A2 : Abelian R2}.
Variable logic : K -> list (V1 * R1) -> list (V2 * R2) -> list (V2 * R2).
Variable F : K -> list (V1 * R1) -> V2 -> R2.
Hypothesis F_nil : forall k v, F k [] v = dzero.
Hypothesis logic_ok : forall k i o, consolidated i -> consolidated o -> i <> [] \/ o <> [] -> forall v, dplus (weight (logic k i o) v) (weight o v) = F k i v.
Variable bops1 : BatchOps B1 M1 T. Variable contents1 : B1 -> list (K * V1 * T * R1). Variable laws1 : BatchLaws (D:=K*V1) bops1 contents1.
Variable bops2 : BatchOps B2 M2 T. Variable contents2 : B2 -> list (K * V2 * T * R2). Variable laws2 : BatchLaws (D:=K*V2) bops2 contents2.
Variable cops1 : CursorOps B1 C1 K V1 T R1. Variable new1 : C1.
Variable cops2 : CursorOps B2 C2 K V2 T R2. Variable new2 : C2.
Hypothesis HR1 : readable bops1 contents1 laws1 cops1 new1.
Hypothesis HR2 : readable bops2 contents2 laws2 cops2 new2.
Notation times l := (map (fun u => snd (fst u)) l).
Notation U2 := (K * V2 * T * R2)%type.
Notation key_of := (fun u : U2 => fst (fst (fst u))).
Variable source : list B1. Variable output : list B2. Variable input : list B1.
Hypothesis HS : Forall (bl_ok _ _ laws1) source. Hypothesis HO : Forall (bl_ok _ _ laws2) output. Hypothesis HI : Forall (bl_ok _ _ laws1) input.
Variables f1 f2 f3 : nat.
Hypothesis L1 : length (flat_map contents1 source) <= f1. Hypothesis L2 : length (flat_map contents2 output) <= f2. Hypothesis L3 : length (flat_map contents1 input) <= f3.
Variables upper held : list T.
Notation SI k := (of_key k (flat_map contents1 source)).
Notation SO k := (of_key k (flat_map contents2 output)).
Notation NB k := (of_key k (flat_map contents1 input)).
Notation trie_in := (union_trie (tries contents1 input)).

(** the times that prompt work on a key *)
Definition seeds_of (pending : list (K * T)) (k : K) : list T := times (NB k) ++ filter (fun t => negb (ac_less_equal upper t)) (pend_of k pending).
Definition todo (jb : nat) (pending : list (K * T)) (k : K) : Prop :=
  (exists n, jb <= n /\ nth_error (map fst trie_in) n = Some k) \/ In k (map fst pending).
Variable ok : K -> T -> Prop. Variable good : T -> Prop.
Record prepared (jb : nat) (pending : list (K * T)) : Prop := {
  pp_held : forall k sd, todo jb pending k -> In sd (seeds_of pending k) -> exists h, In h held /\ tle h sd = true;
  pp_down : forall k r t, tle r t = true -> ok k t -> ok k r;
  pp_good : forall k t, todo jb pending k -> above (seeds_of pending k) t -> good t;
  pp_base : forall k t, todo jb pending k -> ok k t -> good t -> (forall p, In (k, p) pending -> tle p t = false) -> forall v, FA (F k) (SI k) t v = acc (SO k) v t;
  pp_chain : forall k t x0 x, todo jb pending k -> ok k t -> In x0 (times (SI k) ++ times (SO k)) -> tle x0 x = true -> ac_less_equal upper x = true -> tle x t = true ->
    forall y, above (seeds_of pending k) y -> tle y t = true -> le y x -> tle y x = true
}.
Record retired (jb : nat) (pending next : list (K * T)) (pushed : list (list (list U2))) : Prop := {
  rt_length : length pushed = length held;
  rt_consolidated : Forall (fun p => consolidated (A:=K*V2*T) (concat p)) pushed;
  rt_index : forall i p u, nth_error pushed i = Some p -> In u (concat p) -> index_of (V:=V2) (R:=R2) held (snd (fst u)) = Some i;
  rt_out : Forall (fun u => todo jb pending (key_of u) /\ above (seeds_of pending (key_of u)) (snd (fst u)) /\ ac_less_equal upper (snd (fst u)) = false) (concat (concat pushed));
  rt_sorted : strictly_sorted next;
  rt_next : Forall (fun kt => todo jb pending (fst kt) /\ ac_less_equal upper (snd kt) = true /\ (In kt pending \/ above (seeds_of pending (fst kt)) (snd kt))) next;
  rt_keep : forall kt, In kt pending -> ac_less_equal upper (snd kt) = true -> In kt next;
  rt_main : forall k t, todo jb pending k -> ok k t -> good t -> (forall p, In (k, p) next -> tle p t = false) ->
    forall v, FA (F k) (SI k ++ NB k) t v = dplus (acc (SO k) v t) (acc (concat (concat pushed)) (k, v) t)
}.

Lemma acc_other (us : list U2) k v t : Forall (fun u => key_of u <> k) us -> acc us (k, v) t = dzero.
Proof.
  induction 1 as [|u us H _ IH]; [apply acc_nil|]. destruct u as [[[k' v'] t'] r]. rewrite acc_cons'. cbn [fst snd] in *. rewrite IH.
  destruct (eqb_spec (k', v') (k, v)); [congruence|]. apply dplus_0_l.
Qed.
Lemma trie_sorted : strictly_sorted (map fst trie_in).
Proof. apply (keys_U_sorted (tries contents1 input)). Qed.
Lemma add_chunks_acc (cs : list (list U2)) d t : forall ps, length cs = length ps ->
  acc (concat (concat (add_chunks cs ps))) d t = dplus (acc (concat cs) d t) (acc (concat (concat ps)) d t).
Proof.
  induction cs as [|c cs IH]; intros [|p ps] E; try discriminate; simpl; [rewrite !acc_nil, dplus_0_l; auto|].
  rewrite !concat_app, !acc_app, IH by (simpl in E; lia). dperm.
Qed.
Lemma add_chunks_in (cs : list (list U2)) u : forall ps, In u (concat (concat (add_chunks cs ps))) -> In u (concat cs) \/ In u (concat (concat ps)).
Proof.
  induction cs as [|c cs IH]; intros [|p ps] H; simpl in *; auto. rewrite !concat_app, !in_app_iff in *. destruct H as [H|[H|H]]; auto. apply IH in H. tauto.
Qed.
Lemma add_chunks_nth (cs : list (list U2)) i q : forall ps, nth_error (add_chunks cs ps) i = Some q -> exists c p, nth_error cs i = Some c /\ nth_error ps i = Some p /\ q = c :: p.
Proof. revert i. induction cs as [|c cs IH]; intros [|i] [|p ps] H; simpl in *; try discriminate; [inversion H; subst; eauto|eauto]. Qed.
Lemma add_chunks_length (cs : list (list U2)) : forall ps, length cs = length ps -> length (add_chunks cs ps) = length ps.
Proof. induction cs as [|c cs IH]; intros [|p ps] H; simpl in *; auto; try discriminate. Qed.

Lemma retire_keys_ok : forall fuel pending sc oc bc js jo jb,
  length pending + (length trie_in - jb) <= fuel -> strictly_sorted pending ->
  reads contents1 cops1 source sc js -> reads contents2 cops2 output oc jo -> reads contents1 cops1 input bc jb ->
  (forall k, todo jb pending k -> past contents1 source js k /\ past contents2 output jo k /\ past contents1 input jb k) ->
  prepared jb pending ->
  exists next pushed, retire_keys logic cops1 cops2 fuel f1 f2 f3 upper held source output input pending sc oc bc = Some (next, pushed) /\
    retired jb pending next pushed.
Proof.
  induction fuel as [|fuel IH]; intros pending sc oc bc js jo jb Hf SP Rs Ro Rb HP PP.
  - assert (pending = []) by (destruct pending; [auto|simpl in Hf; lia]). subst pending.
    assert (Hn : nth_error (map fst trie_in) jb = None) by (apply nth_error_None; rewrite map_length; simpl in Hf; lia).
    destruct Rb as (jv & Rb). cbn [retire_keys]. rewrite (shows_get_key _ _ _ _ _ Rb). unfold at_key. cbn [kp hd_error option_map min_key].
    assert (Hn' : option_map fst (nth_error trie_in jb) = None) by (rewrite <- nth_error_map; auto). rewrite Hn'.
    exists [], (map (fun _ => []) held). split; auto.
    assert (Td : forall k, ~ todo jb [] k).
    { intros k [(n & Hle & E)|[]]. assert (n < length (map fst trie_in)) by (apply nth_error_Some; congruence). apply nth_error_None in Hn. lia. }
    assert (CC : concat (concat (map (fun _ : T => @nil (list U2)) held)) = []) by (clear; induction held; auto).
    constructor.
    + apply map_length.
    + apply Forall_map, Forall_forall. intros x _. split; constructor.
    + intros i p u H Hu. rewrite nth_error_map in H. destruct (nth_error held i); inversion H; subst. destruct Hu.
    + rewrite CC. constructor.
    + constructor.
    + constructor.
    + intros kt [].
    + intros k t H. exfalso. eapply Td; eauto.
  - assert (Ek : c_get_key (cl_ops cops1) input bc = Some (nth_error (map fst trie_in) jb)).
    { destruct Rb as (jv & Rb). rewrite (shows_get_key _ _ _ _ _ Rb). unfold at_key. cbn [kp]. rewrite nth_error_map. auto. }
    cbn [retire_keys]. rewrite Ek. set (ko := nth_error (map fst trie_in) jb) in *.
    destruct (min_key (option_map fst (hd_error pending)) ko) as [key|] eqn:Em.
    2:{ exists [], (map (fun _ => []) held). split; auto.
        assert (pending = [] /\ ko = None) as [-> Hk].
        { destruct pending as [|[k t] pending]; simpl in Em; [auto|destruct ko; discriminate]. }
        assert (Td : forall k, ~ todo jb [] k).
        { intros k [(n & Hle & E)|[]]. assert (n < length (map fst trie_in)) by (apply nth_error_Some; congruence). apply nth_error_None in Hk. lia. }
        assert (CC : concat (concat (map (fun _ : T => @nil (list U2)) held)) = []) by (clear; induction held; auto).
        constructor.
        + apply map_length.
        + apply Forall_map, Forall_forall. intros x _. split; constructor.
        + intros i p u H Hu. rewrite nth_error_map in H. destruct (nth_error held i); inversion H; subst. destruct Hu.
        + rewrite CC. constructor.
        + constructor.
        + constructor.
        + intros kt [].
        + intros k t H. exfalso. eapply Td; eauto. }
    assert (KL : (forall k t, In (k, t) pending -> le key k) /\ (forall k, ko = Some k -> le key k) /\ (ko = Some key \/ exists t rest, pending = (key, t) :: rest)).
    { destruct pending as [|[k0 t0] pending].
      - simpl in Em. subst ko. rewrite Em. split; [intros k t []|]. split; [intros k E; inversion E; apply le_refl|auto].
      - simpl in Em. apply strictly_sorted_cons_inv in SP as [_ SF]. rewrite Forall_forall in SF.
        assert (H0 : forall k t, In (k, t) ((k0, t0) :: pending) -> le k0 k).
        { intros k t [E|H]; [inversion E; apply le_refl|]. specialize (SF _ H). apply lt_pair in SF as [SF|[-> _]]; [apply lt_le; auto|apply le_refl]. }
        destruct ko as [k1|].
        + destruct (leb k0 k1) eqn:El; inversion Em; subst key.
          * apply leb_le in El. split; [auto|]. split; [intros k E; inversion E; subst; auto|right; eauto].
          * apply leb_gt in El. split; [intros k t H; eapply le_trans; [apply lt_le; exact El|eapply H0; eauto]|]. split; [intros k E; inversion E; apply le_refl|auto].
        + inversion Em; subst key. split; [auto|]. split; [discriminate|right; eauto]. }
    destruct KL as (KL1 & KL2 & KL3).
    assert (Tk : todo jb pending key).
    { destruct KL3 as [E|(t & rest & ->)]; [left; exists jb; split; auto|right; left; auto]. }
    destruct (take_key_ok key pending SP KL1) as (mine & rest & Et & Ep & Hrest). rewrite Et.
    assert (SPm : strictly_sorted (map (fun t => (key, t)) mine) /\ strictly_sorted rest). { rewrite Ep in SP. apply strictly_sorted_app in SP. tauto. }
    destruct SPm as [SPm SPr].
    assert (Pm : forall t, In t (pend_of key pending) <-> In t mine).
    { intros t. rewrite in_pend_of, Ep, in_app_iff, in_map_iff. split; [|intros H; left; eauto]. intros [(t' & E & H)|H]; [inversion E; subst; auto|]. exfalso. apply (lt_irrefl key). eapply Hrest; eauto. }
    assert (Po : forall k, k <> key -> pend_of k pending = pend_of k rest).
    { intros k Hk. rewrite Ep. unfold pend_of. rewrite filter_app, map_app.
      assert (E : filter (fun kt : K * T => eqb (fst kt) k) (map (fun t => (key, t)) mine) = []); [|rewrite E; auto].
      clear - Hk. induction mine as [|t mine IH]; auto. simpl. destruct (eqb_spec key k); auto; congruence. }
    set (jb' := if at_keyb ko key then S jb else jb).
    (* what remains *)
    assert (Td' : forall k, todo jb' rest k -> lt key k /\ todo jb pending k).
    { intros k [(n & Hle & E)|H].
      - assert (Ejb : exists k1, ko = Some k1).
        { destruct ko as [k1|] eqn:Eko; eauto. exfalso. apply nth_error_None in Eko. assert (n < length (map fst trie_in)) by (apply nth_error_Some; congruence). unfold jb' in Hle. simpl in Hle. lia. }
        destruct Ejb as (k1 & Ek1). unfold jb', at_keyb in Hle. rewrite Ek1 in Hle. split; [|left; exists n; split; auto; destruct (eqb k1 key); lia].
        destruct (eqb_spec k1 key) as [E1|Hne].
        + rewrite E1 in Ek1. eapply (sorted_nth _ jb n _ _ trie_sorted); eauto.
        + assert (Lk : lt key k1). { pose proof (KL2 k1 Ek1) as L. apply le_lteq in L as [L|L]; auto. congruence. }
          destruct (Nat.eq_dec n jb) as [->|]; [fold ko in E; congruence|]. eapply lt_trans; [exact Lk|]. eapply (sorted_nth _ jb n _ _ trie_sorted); eauto. lia.
      - apply in_map_iff in H as ([k' t] & E & H). simpl in E. subst k'. split; [eapply Hrest; eauto|]. right. rewrite Ep, map_app, in_app_iff. right. apply in_map_iff. exists (k, t); auto. }
    assert (Tdsplit : forall k, todo jb pending k -> k = key \/ todo jb' rest k).
    { intros k [(n & Hle & E)|H].
      - destruct (Nat.eq_dec n jb) as [->|Hn].
        + fold ko in E. unfold jb', at_keyb. rewrite E. destruct (eqb_spec k key); auto. right. left. exists jb. split; auto.
        + right. left. exists n. split; auto. unfold jb'. destruct (at_keyb ko key); lia.
      - rewrite Ep, map_app, in_app_iff in H. destruct H as [H|H]; [left; rewrite map_map in H; apply in_map_iff in H as (x & <- & _); auto|right; right; auto]. }
    assert (So : forall k, todo jb' rest k -> seeds_of rest k = seeds_of pending k).
    { intros k H. apply Td' in H as [H _]. unfold seeds_of. rewrite (Po k); auto. intros ->. apply (lt_irrefl _ H). }
    assert (PP' : prepared jb' rest).
    { destruct PP as [P1 P2 P3 P4 P5]. constructor.
      - intros k sd H Hs. rewrite So in Hs by auto. apply (P1 k sd); auto. apply Td'; auto.
      - exact P2.
      - intros k t H Ha. rewrite So in Ha by auto. apply (P3 k t); auto. apply Td'; auto.
      - intros k t H Ot Gt Hp v. apply P4; auto; [apply Td'; auto|]. intros p Hin. apply Hp. rewrite Ep in Hin. apply in_app_iff in Hin as [Hin|Hin]; auto.
        apply in_map_iff in Hin as (x & E & _). inversion E; subst. exfalso. apply Td' in H as [H _]. apply (lt_irrefl _ H).
      - intros k t x0 x H Ot Hx L0 Bx Lx y Hy Lt Ly. rewrite So in Hy by auto. eapply (P5 k t x0 x); eauto. apply Td'; auto. }
    set (interesting := sort_dedup (filter (fun t => negb (ac_less_equal upper t)) mine)).
    assert (In_int : forall t, In t interesting <-> In t mine /\ ac_less_equal upper t = false).
    { intros t. unfold interesting. rewrite sort_dedup_in, filter_In, negb_true_iff. tauto. }
    assert (Sds : forall t, above (times (NB key) ++ interesting) t <-> above (seeds_of pending key) t).
    { assert (E : forall s, In s (times (NB key) ++ interesting) <-> In s (seeds_of pending key)).
      { intros s. unfold seeds_of. rewrite !in_app_iff, In_int, filter_In, Pm, negb_true_iff. tauto. }
      intros t. unfold above. split; intros (s & Hs & L); exists s; (split; [apply E; auto|auto]). }
    destruct (HP key Tk) as (Ps & Po' & Pb).
    assert (HP' : forall js' jo', past contents1 source js' key -> past contents2 output jo' key -> forall k, todo jb' rest k ->
       past contents1 source js' k /\ past contents2 output jo' k /\ past contents1 input jb' k).
    { intros js' jo' H1 H2 k Hk. apply Td' in Hk as [Lk Hk]. split; [eapply past_mono; [exact H1|apply lt_le; auto]|]. split; [eapply past_mono; [exact H2|apply lt_le; auto]|].
      intros n k0 Hn E0. destruct (Nat.lt_ge_cases n jb) as [Hl|Hl]; [eapply lt_trans; [eapply Pb; eauto|exact Lk]|].
      unfold jb' in Hn. destruct (at_keyb ko key) eqn:Ea; [|lia]. assert (n = jb) by lia. subst n. fold ko in E0. rewrite E0 in Ea. simpl in Ea. destruct (eqb_spec k0 key); [subst; auto|discriminate]. }
    assert (Hf' : at_keyb ko key = true \/ mine <> [] -> length rest + (length trie_in - jb') <= fuel).
    { intros H. assert (length pending = length mine + length rest) by (rewrite Ep, app_length, map_length; auto).
      destruct (at_keyb ko key) eqn:Ea; unfold jb'.
      - destruct ko as [k1|] eqn:Eko; [|discriminate]. assert (jb < length (map fst trie_in)) by (apply nth_error_Some; fold ko; congruence). rewrite map_length in *. lia.
      - destruct H as [H|H]; [discriminate|]. destruct mine; [congruence|simpl in *; lia]. }
    destruct (at_keyb ko key || negb (is_nil interesting)) eqn:Eb.
    + (* the key is worked on *)
      assert (Hf'' : length rest + (length trie_in - jb') <= fuel).
      { apply Hf'. apply orb_true_iff in Eb as [Eb|Eb]; auto. right. intros ->. unfold interesting in Eb. discriminate. }
      set (okt := fun t => ok key t /\ forall p, In p mine -> ac_less_equal upper p = true -> tle p t = false).
      destruct (compute_ok logic F F_nil logic_ok bops1 contents1 laws1 bops2 contents2 laws2 cops1 cops2 source output input key f1 f2 f3 sc oc bc js jo jb upper held interesting
        okt good HS HO HI Rs Ro Rb Ps Po' Pb) as (sc' & oc' & bc' & js' & jo' & outs & new & l & Ec & Rs' & Ps' & Ro' & Po2 & Rb' & Al & Sl & Zl & Ol & Nl & Ml); auto.
      { unfold interesting. apply sort_dedup_sorted. }
      { intros sd Hsd. apply (pp_held _ _ PP key sd Tk). unfold seeds_of. rewrite in_app_iff in *. destruct Hsd as [Hsd|Hsd]; auto. right. rewrite filter_In, Pm, negb_true_iff. apply In_int; auto. }
      { intros r t L [H1 H2]. split; [eapply (pp_down _ _ PP); eauto|]. intros p Hp Bp. destruct (tle p r) eqn:E; auto. rewrite <- (H2 p Hp Bp). symmetry. eapply tle_trans; eauto. }
      { intros t Ht. apply (pp_good _ _ PP key t Tk). apply Sds; auto. }
      { intros t [Ot Lt] Gt Hp v. apply (pp_base _ _ PP key t Tk Ot Gt). intros p Hin. apply in_pend_of, Pm in Hin. destruct (ac_less_equal upper p) eqn:Bp; auto. apply Hp, In_int; auto. }
      { intros t x0 x [Ot _] Hx L0 Bx Lx y Hy Lt Ly. eapply (pp_chain _ _ PP key t x0 x); eauto. apply Sds; auto. }
      rewrite Ec.
      assert (Ek' : c_get_key (cl_ops cops1) input bc' = Some ko).
      { destruct Rb' as (jv & Rb'). rewrite (shows_get_key _ _ _ _ _ Rb'). unfold at_key. cbn [kp]. unfold ko. rewrite nth_error_map. auto. }
      rewrite Ek'.
      assert (exists bc2, (if at_keyb ko key then c_step_key (cl_ops cops1) input bc' else Some bc') = Some bc2 /\ reads contents1 cops1 input bc2 jb') as (bc2 & Es & Rb2).
      { unfold jb'. destruct (at_keyb ko key) eqn:Ea; [|eauto]. destruct Rb' as (jv & Rb').
        destruct (shows_nav _ _ _ _ _ StepKey Rb') as (bc2 & E2 & S2); [exact I|exact I|]. cbn [c_nav] in E2. exists bc2. split; auto. exists 0. cbn [move kp] in S2.
        destruct ko as [k1|] eqn:Eko; [|discriminate]. assert (jb < length (map fst trie_in)) by (apply nth_error_Some; fold ko; congruence). rewrite map_length in *.
        rewrite Nat.min_l in S2 by lia. exact S2. }
      rewrite Es.
      destruct (IH rest sc' oc' bc2 js' jo' jb' Hf'' SPr Rs' Ro' Rb2 (HP' js' jo' Ps' Po2) PP') as (next & pushed & Er & RT). rewrite Er.
      eexists _, _. split; [reflexivity|]. set (new' := sort_dedup (new ++ filter (ac_less_equal upper) mine)).
      assert (New : forall t, In t new' <-> In t new \/ (In t mine /\ ac_less_equal upper t = true)).
      { intros t. unfold new'. rewrite sort_dedup_in, in_app_iff, filter_In. tauto. }
      assert (Len : length (map (fun b => chunk_of key (snd b)) outs) = length pushed).
      { rewrite map_length, (rt_length _ _ _ _ RT). destruct Al as [Al _]. rewrite <- Al, map_length. auto. }
      assert (Hidx : Forall (fun u => exists i, index_of (V:=V2) (R:=R2) held (snd (fst u)) = Some i) l).
      { eapply Forall_impl; [|exact Ol]. cbv beta. intros u [Ha _]. apply Sds in Ha. destruct Ha as (sd & Hsd & L). destruct (pp_held _ _ PP key sd Tk Hsd) as (h & Hh & Lh).
        apply last_position_some. exists h. split; [rewrite map_map; cbn [fst]; rewrite map_id; auto|eapply tle_trans; eauto]. }
      assert (Chunk : forall o, In o outs -> forall u, In u (chunk_of key (snd o)) -> fst (fst (fst u)) = key /\ In (snd (fst (fst u)), snd (fst u), snd u) l).
      { intros o Ho u Hu. apply in_chunk in Hu as [E Hu]. split; auto. apply In_nth_error in Ho as (i & Hi). destruct o as [t us]. destruct Al as [_ Al]. rewrite (Al i t us Hi) in Hu. apply filter_In in Hu. tauto. }
      assert (Nn : forall p, In (key, p) next -> False).
      { intros p Hp. pose proof (rt_next _ _ _ _ RT) as H. rewrite Forall_forall in H. specialize (H _ Hp) as [H _]. simpl in H. apply Td' in H as [H _]. apply (lt_irrefl _ H). }
      constructor.
      * rewrite add_chunks_length; auto. apply (rt_length _ _ _ _ RT).
      * apply Forall_forall. intros q Hq. apply In_nth_error in Hq as (i & Hi). apply add_chunks_nth in Hi as (c & p & Hc & Hp & ->). cbn [concat].
        rewrite nth_error_map in Hc. destruct (nth_error outs i) as [[to us]|] eqn:Eo; [|discriminate]. inversion Hc; subst c. clear Hc. cbn [snd].
        apply consolidated_keys.
        -- destruct Al as [_ Al]. rewrite (Al i to us Eo). apply chunk_consolidated; [|rewrite Forall_forall in *; intros u Hu; apply filter_In in Hu as [Hu _]; auto].
           clear - Sl. induction l as [|u l IHl]; [constructor|]. simpl map in Sl. apply strictly_sorted_cons_inv in Sl as [Sl SF]. cbn [filter]. destruct (at_index held i u); auto.
           cbn [map]. apply strictly_sorted_cons; auto. rewrite Forall_map in *. rewrite Forall_forall in *. intros w Hw. apply filter_In in Hw as [Hw _]. auto.
        -- pose proof (rt_consolidated _ _ _ _ RT) as H. rewrite Forall_forall in H. apply H. eapply nth_error_In; eauto.
        -- intros x y Hx Hy. apply in_chunk in Hx as [-> _]. pose proof (rt_out _ _ _ _ RT) as H. rewrite Forall_forall in H.
           specialize (H y). destruct H as [H _]; [apply in_concat; apply in_concat in Hy as (c & Hc & Hy); exists c; split; auto; apply in_concat; exists p; split; auto; eapply nth_error_In; eauto|].
           apply Td' in H. tauto.
      * intros i q u Hi Hu. apply add_chunks_nth in Hi as (c & p & Hc & Hp & ->). cbn [concat] in Hu. apply in_app_iff in Hu as [Hu|Hu]; [|eapply (rt_index _ _ _ _ RT); eauto].
        rewrite nth_error_map in Hc. destruct (nth_error outs i) as [[to us]|] eqn:Eo; [|discriminate]. inversion Hc; subst c. cbn [snd] in Hu. apply in_chunk in Hu as [_ Hu].
        destruct Al as [_ Al]. rewrite (Al i to us Eo) in Hu. apply filter_In in Hu as [_ Hu]. apply at_index_iff in Hu. exact Hu.
      * apply Forall_forall. intros u Hu. apply add_chunks_in in Hu as [Hu|Hu].
        -- apply in_concat in Hu as (c & Hc & Hu). apply in_map_iff in Hc as (o & <- & Ho). destruct (Chunk o Ho u Hu) as [E Hl]. rewrite E. split; auto.
           rewrite Forall_forall in Ol. destruct (Ol _ Hl) as [Ha Hb]. cbn [fst snd] in Ha, Hb. split; auto. apply Sds; auto.
        -- pose proof (rt_out _ _ _ _ RT) as H. rewrite Forall_forall in H. destruct (H u Hu) as (H1 & H2 & H3). split; [apply Td'; auto|]. rewrite So in H2 by auto. auto.
      * apply strictly_sorted_app. split; [|split; [apply (rt_sorted _ _ _ _ RT)|]].
        -- unfold new'. pose proof (sort_dedup_sorted (new ++ filter (ac_less_equal upper) mine)) as S. clear - S. induction (sort_dedup _) as [|t s IHs]; [constructor|].
           apply strictly_sorted_cons_inv in S as [S SF]. cbn [map]. apply strictly_sorted_cons; auto. rewrite Forall_map. eapply Forall_impl; [|exact SF]. intros y Hy. apply lt_pair; auto.
        -- intros [k1 t1] [k2 t2] Hx Hy. apply in_map_iff in Hx as (t & E & _). inversion E; subst. pose proof (rt_next _ _ _ _ RT) as H. rewrite Forall_forall in H. destruct (H _ Hy) as [H1 _]. simpl in H1.
           apply lt_pair. left. apply Td'; auto.
      * apply Forall_app. split.
        -- apply Forall_map, Forall_forall. intros t Ht. cbn [fst snd]. split; auto. apply New in Ht. destruct Ht as [Ht|[Ht Bt]].
           ++ rewrite Forall_forall in Nl. destruct (Nl t Ht) as [Bt Ha]. split; auto. right. apply Sds; auto.
           ++ split; auto. left. apply in_pend_of, Pm; auto.
        -- pose proof (rt_next _ _ _ _ RT) as H. rewrite Forall_forall in *. intros kt Hkt. destruct (H kt Hkt) as (H1 & H2 & H3). split; [apply Td'; auto|]. split; auto. rewrite So in H3 by auto.
           destruct H3 as [H3|H3]; auto. left. rewrite Ep, in_app_iff. auto.
      * intros [k t] Hkt Bt. apply in_app_iff. rewrite Ep in Hkt. apply in_app_iff in Hkt as [Hkt|Hkt]; [left|right; apply (rt_keep _ _ _ _ RT); auto].
        apply in_map_iff in Hkt as (t' & E & Ht). inversion E; subst. apply in_map_iff. exists t. split; auto. apply New. auto.
      * intros k t Hk Ot Gt Hn v. rewrite add_chunks_acc by exact Len.
        assert (Ec2 : acc (concat (map (fun b => chunk_of key (snd b)) outs)) (k, v) t = if eqb key k then acc l v t else dzero).
        { rewrite acc_concat, map_map. destruct (eqb_spec key k) as [->|Hne].
          - rewrite <- (allots_acc held outs l v t Al Hidx). f_equal. apply map_ext. intros o. rewrite acc_chunk, eqb_refl. auto.
          - clear - Hne. induction outs as [|o outs IHo]; auto. cbn [map]. change (dsum (?x :: ?y)) with (dplus x (dsum y)). rewrite IHo, acc_chunk. destruct (eqb_spec key k); [congruence|]. apply dplus_0_l. }
        rewrite Ec2. destruct (eqb_spec key k) as [<-|Hne].
        -- assert (E0 : acc (concat (concat pushed)) (key, v) t = dzero).
           { apply acc_other. pose proof (rt_out _ _ _ _ RT) as H. rewrite Forall_forall in *. intros u Hu. destruct (H u Hu) as [H1 _]. apply Td' in H1 as [H1 _]. intros E. rewrite E in H1. apply (lt_irrefl _ H1). }
           rewrite E0, dplus_0_r. apply Ml; auto.
           ++ split; auto. intros p Hp Bp. apply Hn. apply in_app_iff. left. apply in_map_iff. exists p. split; auto. apply New; auto.
           ++ intros y Hy. apply Hn. apply in_app_iff. left. apply in_map_iff. exists y. split; auto. apply New; auto.
        -- rewrite dplus_0_l. apply (rt_main _ _ _ _ RT); auto; [|intros p Hp; apply Hn, in_app_iff; auto]. destruct (Tdsplit k Hk); [congruence|auto].
    + (* nothing to do for it this round *)
      apply orb_false_iff in Eb as [Ea Ei]. apply negb_false_iff in Ei.
      assert (Hint : interesting = []) by (destruct interesting; [auto|discriminate]).
      assert (Hko : ko <> Some key). { intros E. rewrite E in Ea. simpl in Ea. rewrite eqb_refl in Ea. discriminate. }
      assert (Hmine : mine <> []).
      { destruct KL3 as [E|(t & r' & E)]; [congruence|]. intros ->. simpl in Ep. rewrite Ep in E. assert (Hin : In (key, t) rest) by (rewrite E; left; auto). apply Hrest in Hin. apply (lt_irrefl _ Hin). }
      assert (Ejb : jb' = jb) by (unfold jb'; rewrite Ea; auto).
      assert (Nb : NB key = []).
      { apply (absent contents1 input jb key Pb). intros k E. pose proof (KL2 k E) as L. apply le_lteq in L as [L|L]; auto. subst k. exfalso. apply Hko. exact E. }
      assert (Sn : forall t, ~ above (seeds_of pending key) t).
      { intros t Ha. apply Sds in Ha. rewrite Nb, Hint in Ha. destruct Ha as (s & [] & _). }
      assert (Bm : forall t, In t mine -> ac_less_equal upper t = true).
      { intros t Ht. destruct (ac_less_equal upper t) eqn:E; auto. assert (In t interesting) by (apply In_int; auto). rewrite Hint in H. destruct H. }
      rewrite <- Ejb in Rb.
      destruct (IH rest sc oc bc js jo jb' (Hf' (or_intror Hmine)) SPr Rs Ro Rb (HP' js jo Ps Po') PP') as (next & pushed & Er & RT). rewrite Er.
      eexists _, _. split; [reflexivity|]. constructor.
      * apply (rt_length _ _ _ _ RT).
      * apply (rt_consolidated _ _ _ _ RT).
      * apply (rt_index _ _ _ _ RT).
      * pose proof (rt_out _ _ _ _ RT) as H. rewrite Forall_forall in *. intros u Hu. destruct (H u Hu) as (H1 & H2 & H3). split; [apply Td'; auto|]. rewrite So in H2 by auto. auto.
      * apply strictly_sorted_app. split; [auto|split; [apply (rt_sorted _ _ _ _ RT)|]].
        intros [k1 t1] [k2 t2] Hx Hy. apply in_map_iff in Hx as (t & E & _). injection E as <- <-. pose proof (rt_next _ _ _ _ RT) as H. rewrite Forall_forall in H. destruct (H _ Hy) as [H1 _]. simpl in H1.
        apply lt_pair. left. apply Td'; auto.
      * apply Forall_app. split.
        -- apply Forall_map, Forall_forall. intros t Ht. cbn [fst snd]. split; auto. split; auto. left. apply in_pend_of, Pm; auto.
        -- pose proof (rt_next _ _ _ _ RT) as H. rewrite Forall_forall in *. intros kt Hkt. destruct (H kt Hkt) as (H1 & H2 & H3). split; [apply Td'; auto|]. split; auto. rewrite So in H3 by auto.
           destruct H3 as [H3|H3]; auto. left. rewrite Ep, in_app_iff. auto.
      * intros [k t] Hkt Bt. apply in_app_iff. rewrite Ep in Hkt. apply in_app_iff in Hkt as [Hkt|Hkt]; [left; auto|right; apply (rt_keep _ _ _ _ RT); auto].
      * intros k t Hk Ot Gt Hn v. destruct (eqb_spec key k) as [<-|Hne].
        -- rewrite Nb, app_nil_r.
           assert (E0 : acc (concat (concat pushed)) (key, v) t = dzero).
           { apply acc_other. pose proof (rt_out _ _ _ _ RT) as H. rewrite Forall_forall in *. intros u Hu. destruct (H u Hu) as [H1 _]. apply Td' in H1 as [H1 _]. intros E. rewrite E in H1. apply (lt_irrefl _ H1). }
           rewrite E0, dplus_0_r. apply (pp_base _ _ PP key t Tk Ot Gt). intros p Hp. apply Hn. apply in_app_iff. left. apply in_map_iff. exists p. split; auto. apply Pm, in_pend_of; auto.
        -- apply (rt_main _ _ _ _ RT); auto; [|intros p Hp; apply Hn, in_app_iff; auto]. destruct (Tdsplit k Hk); [congruence|auto].
Qed.
End Keys.

(** ** The batches of a round *)
Section Tiles.
Context {B2 M2 K V2 T R2 : Type} {OK : Ord K} {OV2 : Ord V2} {TT : Time T} {D2 : Diff R2}.
Variable bops2 : BatchOps B2 M2 T. Variable contents2 : B2 -> list (K * V2 * T * R2). Variable laws2 : BatchLaws (D:=K*V2) bops2 contents2.
Notation U2 := (K * V2 * T * R2)%type.
Variable build : list (list U2) -> Description T -> B2.
Hypothesis HB : builds (D:=K*V2) bops2 contents2 laws2 (fun chain => consolidated (A:=K*V2*T) (concat chain)) build.
Variable upper : list T.

Fixpoint placed (held : list T) (pushed : list (list (list U2))) : Prop :=
  match held, pushed with
  | time :: held', p :: pushed' => consolidated (A:=K*V2*T) (concat p) /\
      Forall (fun u => tle time (snd (fst u)) = true /\ ~ beyond held' (snd (fst u)) /\ ~ beyond upper (snd (fst u))) (concat p) /\ placed held' pushed'
  | [], [] => True
  | _, _ => False
  end.
Definition tile_ok (held : list T) (tb : T * B2) : Prop :=
  proper bops2 contents2 laws2 (snd tb) /\ since_of bops2 (snd tb) = [tmin] /\ In (fst tb) held /\ beyond (lower_of bops2 (snd tb)) (fst tb) /\
  Forall (fun u => tle (fst tb) (snd (fst u)) = true /\ beyond (lower_of bops2 (snd tb)) (snd (fst u)) /\ ~ beyond (upper_of bops2 (snd tb)) (snd (fst u))) (contents2 (snd tb)).
Lemma tile_ok_mono h held tb : tile_ok held tb -> tile_ok (h :: held) tb.
Proof. unfold tile_ok. intros (H1 & H2 & H3 & H4). split; [auto|split; [auto|split; [right; auto|auto]]]. Qed.

Lemma tile_batches_ok : forall held pushed lo last, placed held pushed -> antichain lo -> Forall (beyond lo) held -> (forall t, beyond upper t -> beyond lo t) ->
  (held = [] -> antichain last /\ same_future lo upper /\ same_future last upper) ->
  exists produced last' up, tile_batches build upper held pushed lo last = Some (produced, last') /\
    antichain last' /\ same_future last' upper /\ tiles bops2 lo (map snd produced) up /\ same_future up upper /\
    Forall (tile_ok held) produced /\ flat_map contents2 (map snd produced) = concat (concat pushed).
Proof.
  induction held as [|time held IH]; intros [|p pushed] lo last HP HA HL HU H0; try (destruct HP; fail).
  - destruct (H0 eq_refl) as (L1 & L2 & L3). exists [], last, lo. cbn [tile_batches]. split; [reflexivity|]. do 2 (split; [auto|]). split; [apply ti_nil; intros t; tauto|]. split; [auto|]. split; [constructor|reflexivity].
  - destruct HP as (HC & HF & HP). cbn [tile_batches]. set (ou := ac_extend (ac_extend [] upper) held).
    assert (Aou : antichain ou) by (apply ac_extend_antichain, ac_extend_antichain; constructor).
    assert (Bou : forall t, beyond ou t <-> beyond upper t \/ beyond held t).
    { intros t. unfold ou. rewrite !ac_extend_beyond. split; [intros [[H|H]|H]; auto; destruct (beyond_nil _ H)|tauto]. }
    inversion HL as [|? ? Ht HL']; subst.
    assert (Lou : forall t, beyond ou t -> beyond lo t).
    { intros t H. apply Bou in H as [H|(h & Hh & L)]; auto. rewrite Forall_forall in HL'. apply (beyond_mono _ h); auto. }
    assert (Hlast : held = [] -> antichain ou /\ same_future ou upper /\ same_future ou upper).
    { intros ->. assert (same_future ou upper) by (intros t; rewrite Bou; split; [intros [H|H]; auto; destruct (beyond_nil _ H)|auto]). auto. }
    assert (Ao' : antichain (ac_extend [] ou)) by (apply ac_extend_antichain; constructor).
    assert (So' : same_future (ac_extend [] ou) ou) by (exact (ac_from_beyond ou)).
    destruct (ac_eqb ou lo) eqn:Eq; cbn [negb].
    + apply ac_eqb_spec in Eq; auto.
      destruct (IH pushed lo ou HP HA) as (produced & last' & up & E & I1 & I2 & I3 & I4 & I5 & I6); auto.
      { intros E. destruct (Hlast E) as (X1 & X2 & X3). split; [auto|split; [|auto]]. intros t. rewrite <- (Eq t). apply X2. }
      exists produced, last', up. split; [exact E|]. do 4 (split; [auto|]). split; [eapply Forall_impl; [|exact I5]; intros tb; apply tile_ok_mono|].
      assert (concat p = []) as Ep.
      { destruct (concat p) as [|u us]; auto. exfalso. inversion HF as [|? ? (F1 & F2 & F3) _]; subst. assert (beyond ou (snd (fst u))) by (apply Eq; apply (beyond_mono _ time); auto). apply Bou in H as [H|H]; auto. }
      simpl. rewrite concat_app, Ep. exact I6.
    + assert (Nlo : lo <> []) by (intros ->; destruct (beyond_nil _ Ht)).
      assert (Ed : desc_new lo ou [tmin] = Some {| d_lower := lo; d_upper := ou; d_since := [tmin] |}) by (unfold desc_new; destruct lo; [congruence|auto]). rewrite Ed.
      destruct (IH pushed (ac_extend [] ou) ou HP Ao') as (produced & last' & up & E & I1 & I2 & I3 & I4 & I5 & I6).
      { apply Forall_forall. intros h Hh. apply So', Bou. right. apply beyond_in; auto. }
      { intros t H. apply So', Bou; auto. }
      { intros E. destruct (Hlast E) as (X1 & X2 & X3). split; [auto|split; [|auto]]. intros t. rewrite (So' t). apply X2. }
      rewrite E. set (d := {| d_lower := lo; d_upper := ou; d_since := [tmin] |}) in *.
      destruct (HB p d HC) as (B1 & B2' & B3).
      assert (El : lower_of bops2 (build p d) = lo) by (unfold BatchLaws.lower_of; rewrite B3; auto).
      assert (Eu : upper_of bops2 (build p d) = ou) by (unfold BatchLaws.upper_of; rewrite B3; auto).
      assert (Es : since_of bops2 (build p d) = [tmin]) by (unfold BatchLaws.since_of; rewrite B3; auto).
      assert (HT : forall t, beyond (ac_extend [] ou) t <-> beyond ou t) by (intros t; apply So').
      exists ((time, build p d) :: produced), last'.
      assert (exists up', tiles bops2 lo (map snd ((time, build p d) :: produced)) up' /\ same_future up' upper) as (up' & T1 & T2).
      { cbn [map snd]. exists up. split; [|auto]. constructor; [rewrite El; intros ?; reflexivity|]. rewrite Eu. clear - I3 HT. clearbody ou. inversion I3 as [? ? J0|? ? ? ? J1 J2]; subst; constructor; auto; intros t; rewrite <- (HT t); auto. }
      exists up'. split; [reflexivity|]. do 4 (split; [auto|]). split.
      * constructor; [|eapply Forall_impl; [|exact I5]; intros tb; apply tile_ok_mono]. unfold tile_ok. cbn [fst snd]. rewrite El, Eu, Es, B2'. split; [|split; [auto|split; [left; auto|split; [auto|]]]].
        -- constructor; rewrite ?El, ?Eu; auto. intros H. assert (ac_eqb ou lo = true); [|congruence]. apply ac_eqb_spec; auto. intros t. symmetry. apply H.
        -- eapply Forall_impl; [|exact HF]. cbv beta. intros u (F1 & F2 & F3). split; [auto|split; [apply (beyond_mono _ time); auto|]]. intros H. apply Bou in H as [H|H]; auto.
      * cbn [map snd flat_map]. rewrite B2'. simpl. rewrite concat_app. f_equal. exact I6.
Qed.
End Tiles.

(** ** A round of retire *)
Section Round.
Context {B1 M1 C1 B2 M2 C2 K V1 V2 T R1 R2 : Type} {OK : Ord K} {OV1 : Ord V1} {OV2 : Ord V2} {TT : Time T} {D1 : Diff R1} {D2 : Diff R2} {A2 : Abelian R2}.
Variable logic : K -> list (V1 * R1) -> list (V2 * R2) -> list (V2 * R2).
Variable F : K -> list (V1 * R1) -> V2 -> R2.
Hypothesis F_nil : forall k v, F k [] v = dzero.
Hypothesis logic_ok : forall k i o, consolidated i -> consolidated o -> i <> [] \/ o <> [] -> forall v, dplus (weight (logic k i o) v) (weight o v) = F k i v.
Variable bops1 : BatchOps B1 M1 T. Variable contents1 : B1 -> list (K * V1 * T * R1). Variable laws1 : BatchLaws (D:=K*V1) bops1 contents1.
Variable bops2 : BatchOps B2 M2 T. Variable contents2 : B2 -> list (K * V2 * T * R2). Variable laws2 : BatchLaws (D:=K*V2) bops2 contents2.
Variable cops1 : CursorOps B1 C1 K V1 T R1. Variable new1 : C1.
Variable cops2 : CursorOps B2 C2 K V2 T R2. Variable new2 : C2.
Hypothesis HR1 : readable bops1 contents1 laws1 cops1 new1.
Hypothesis HR2 : readable bops2 contents2 laws2 cops2 new2.
Notation times l := (map (fun u => snd (fst u)) l).
Notation U2 := (K * V2 * T * R2)%type.
Variable build : list (list U2) -> Description T -> B2.
Hypothesis HB : builds (D:=K*V2) bops2 contents2 laws2 (fun chain => consolidated (A:=K*V2*T) (concat chain)) build.

Lemma placed_of upper : forall held pushed, length pushed = length held -> Forall (fun p => consolidated (A:=K*V2*T) (concat p)) pushed ->
  (forall i p u, nth_error pushed i = Some p -> In u (concat p) -> index_of (V:=V2) (R:=R2) held (snd (fst u)) = Some i /\ ~ beyond upper (snd (fst u))) -> placed upper held pushed.
Proof.
  induction held as [|h held IH]; intros [|p pushed] E HC HI; try discriminate; [exact I|]. inversion HC as [|? ? Hp HC']; subst. cbn [placed]. split; [auto|]. split.
  - apply Forall_forall. intros u Hu. destruct (HI 0 p u eq_refl Hu) as [E1 E2]. unfold index_of in E1. cbn [map last_position] in E1.
    destruct (last_position (snd (fst u)) (map (fun t => (t, @nil (V2 * T * R2))) held)) eqn:El; [discriminate|]. destruct (tle h (snd (fst u))) eqn:Lh; [|discriminate].
    split; auto. split; auto. intros (x & Hx & L). destruct (last_position_some (snd (fst u)) (map (fun t => (t, @nil (V2 * T * R2))) held)) as [j Hj]; [|congruence].
    exists x. split; auto. rewrite map_map. cbn [fst]. rewrite map_id. auto.
  - apply IH; auto. intros i q u Hq Hu. destruct (HI (S i) q u Hq Hu) as [E1 E2]. split; auto. unfold index_of in *. cbn [map last_position] in E1.
    destruct (last_position (snd (fst u)) (map (fun t => (t, @nil (V2 * T * R2))) held)) as [j|]; [congruence|]. destruct (tle h (snd (fst u))); discriminate.
Qed.

Variable ok : K -> T -> Prop.
Hypothesis ok_down : forall k r t, tle r t = true -> ok k t -> ok k r.

Lemma retire_ok (source : list B1) (output : list B2) (input : list B1) (lower upper held : list T) (pending : list (K * T)) :
  Forall (bl_ok _ _ laws1) source -> Forall (bl_ok _ _ laws2) output -> Forall (bl_ok _ _ laws1) input ->
  strictly_sorted pending -> antichain lower -> antichain upper -> antichain held -> (forall t, beyond upper t -> beyond lower t) -> Forall (beyond lower) held ->
  (forall k p, In (k, p) pending -> beyond held p) ->
  Forall (fun u => beyond held (snd (fst u)) /\ ~ beyond upper (snd (fst u))) (flat_map contents1 input) ->
  (forall k t x y, ok k t -> beyond upper x -> tle x t = true -> tle y t = true -> le y x -> tle y x = true) ->
  (forall k t, ok k t -> beyond lower t -> (forall p, In (k, p) pending -> tle p t = false) ->
     forall v, FA (F k) (of_key k (flat_map contents1 source)) t v = acc (of_key k (flat_map contents2 output)) v t) ->
  exists produced frontier next up, retire logic bops1 bops2 cops1 new1 cops2 new2 build source output input lower upper held pending = Some (produced, frontier, next) /\
    tiles bops2 (ac_extend [] lower) (map snd produced) up /\ (forall t, beyond upper t -> beyond up t) /\ Forall (tile_ok bops2 contents2 laws2 held) produced /\
    strictly_sorted next /\ antichain frontier /\ Forall (fun t => beyond held t /\ beyond upper t) frontier /\ (forall k p, In (k, p) next -> beyond frontier p /\ beyond upper p) /\
    (forall k p, In (k, p) next -> In (k, p) pending \/ exists s, (In (k, s) pending \/ In s (times (of_key k (flat_map contents1 input)))) /\ ~ beyond upper s /\ tle s p = true) /\
    (forall k t, ok k t -> beyond lower t -> (forall p, In (k, p) next -> tle p t = false) -> forall v,
       FA (F k) (of_key k (flat_map contents1 (source ++ input))) t v = acc (of_key k (flat_map contents2 (output ++ map snd produced))) v t).
Proof.
  intros HS HO HI SP AL AU AH UL HH HP HN Hch Hbase. unfold retire.
  assert (Ofc : forall k a b, of_key k (flat_map contents1 (a ++ b)) = of_key k (flat_map contents1 a) ++ of_key k (flat_map contents1 b)) by (intros; rewrite flat_map_app; apply of_key_app).
  assert (Nin : forall u, In u (flat_map contents1 input) -> beyond held (snd (fst u)) /\ ~ beyond upper (snd (fst u))) by (apply Forall_forall; auto).
  assert (Ntk : forall k s, In s (times (of_key k (flat_map contents1 input))) -> beyond held s /\ ~ beyond upper s).
  { intros k s Hs. apply in_map_iff in Hs as (u & <- & Hu). apply in_of_key in Hu. apply Nin in Hu. exact Hu. }
  destruct (existsb (fun t => negb (ac_less_equal upper t)) held) eqn:Ex.
  2:{ assert (Hall : forall h, In h held -> beyond upper h).
      { intros h Hh. destruct (ac_less_equal upper h) eqn:E; [apply ac_less_equal_spec; auto|]. assert (existsb (fun t => negb (ac_less_equal upper t)) held = true); [|congruence].
        apply existsb_exists. exists h. rewrite E. auto. }
      assert (Hup : forall t, beyond held t -> beyond upper t) by (intros t (h & Hh & L); apply (beyond_mono _ h); auto).
      assert (Hin : flat_map contents1 input = []).
      { destruct (flat_map contents1 input) as [|u us]; auto. exfalso. destruct (Nin u (or_introl eq_refl)) as [H1 H2]. auto. }
      exists [], held, pending, (ac_extend [] lower). split; [reflexivity|]. split; [apply ti_nil; intros t0; tauto|]. split; [intros t H; apply (ac_from_beyond lower), UL, H|]. split; [constructor|].
      split; [auto|]. split; [auto|]. split; [apply Forall_forall; intros; split; [apply beyond_in; auto|auto]|]. split; [intros k p H; split; [eauto|apply Hup; eauto]|]. split; [auto|].
      intros k t Ot Bt Hp v. cbn [map]. rewrite app_nil_r, Ofc, Hin. cbn. rewrite app_nil_r. apply Hbase; auto. }
  destruct (cursor_list_no_seek bops1 contents1 laws1 cops1 new1 HR1 source HS) as (sc & Es & Ps).
  destruct (cursor_list_no_seek bops2 contents2 laws2 cops2 new2 HR2 output HO) as (oc & Eo & Po).
  destruct (cursor_list_no_seek bops1 contents1 laws1 cops1 new1 HR1 input HI) as (bc & Ei & Pi).
  rewrite Es, Eo, Ei.
  rewrite (sum_len_contents bops1 contents1 laws1 source HS), (sum_len_contents bops2 contents2 laws2 output HO), (sum_len_contents bops1 contents1 laws1 input HI).
  set (good := fun t => beyond lower t).
  assert (Seeds : forall k s, In s (seeds_of contents1 input upper pending k) -> beyond held s /\ ~ beyond upper s /\ (In (k, s) pending \/ In s (times (of_key k (flat_map contents1 input))))).
  { intros k s Hs. unfold seeds_of in Hs. apply in_app_iff in Hs as [Hs|Hs]; [destruct (Ntk _ _ Hs); auto|]. apply filter_In in Hs as [Hs Bs]. apply in_pend_of in Hs.
    split; [eapply HP; eauto|]. split; [|auto]. apply negb_true_iff, ac_less_equal_false in Bs. auto. }
  destruct (retire_keys_ok logic F F_nil logic_ok bops1 contents1 laws1 bops2 contents2 laws2 cops1 cops2 source output input HS HO HI
     (length (flat_map contents1 source)) (length (flat_map contents2 output)) (length (flat_map contents1 input)) (le_n _) (le_n _) (le_n _) upper held ok good
     (length pending + length (flat_map contents1 input)) pending sc oc bc 0 0 0) as (next & pushed & Er & RT).
  { destruct (union_length contents1 input) as [UL1 _]. lia. }
  { auto. }
  { exists 0. apply shows_start; auto. }
  { exists 0. apply shows_start; auto. }
  { exists 0. apply shows_start; auto. }
  { intros k _. split; [|split]; intros n k0 Hn; lia. }
  { constructor.
    - intros k sd _ Hs. apply Seeds in Hs as ((h & Hh & L) & _). eauto.
    - exact ok_down.
    - intros k t _ (s & Hs & L). apply Seeds in Hs as ((h & Hh & L') & _). unfold good. rewrite Forall_forall in HH. apply (beyond_mono _ h); auto. eapply tle_trans; eauto.
    - intros k t _ Ot Gt Hp v. apply Hbase; auto.
    - intros k t x0 x _ Ot _ _ Bx Lx y _ Ly Lyx. apply (Hch k t x y); auto. apply ac_less_equal_spec; auto. }
  rewrite Er.
  assert (Pl : placed upper held pushed).
  { apply placed_of; [apply (rt_length _ _ _ _ _ _ _ _ _ _ _ _ _ _ RT)|apply (rt_consolidated _ _ _ _ _ _ _ _ _ _ _ _ _ _ RT)|]. intros i p u Hi Hu. split; [eapply (rt_index _ _ _ _ _ _ _ _ _ _ _ _ _ _ RT); eauto|].
    pose proof (rt_out _ _ _ _ _ _ _ _ _ _ _ _ _ _ RT) as Ho. rewrite Forall_forall in Ho. apply ac_less_equal_false. apply (Ho u). apply in_concat in Hu as (c & Hc & Hu). apply in_concat. exists c. split; auto. apply in_concat. exists p. split; auto. eapply nth_error_In; eauto. }
  assert (Alo : antichain (ac_extend [] lower)) by (apply ac_extend_antichain; constructor).
  assert (Blo : forall t, beyond (ac_extend [] lower) t <-> beyond lower t) by (exact (ac_from_beyond lower)).
  assert (Hne : held <> []) by (intros ->; discriminate).
  destruct (tile_batches_ok bops2 contents2 laws2 build HB upper held pushed (ac_extend [] lower) [] Pl Alo) as (produced & last' & up & Et & T1 & T2 & T3 & T4 & T5 & T6).
  { eapply Forall_impl; [|exact HH]. intros t. apply Blo. }
  { intros t H. apply Blo, UL, H. }
  { congruence. }
  rewrite Et. assert (Eq : ac_eqb last' upper = true) by (apply ac_eqb_spec; auto). rewrite Eq. cbn [negb].
  pose proof (rt_next _ _ _ _ _ _ _ _ _ _ _ _ _ _ RT) as Hnx. rewrite Forall_forall in Hnx.
  exists produced, (ac_from (map snd next)), next, up. split; [reflexivity|]. split; [auto|]. split; [intros t; apply T4|]. split; [auto|].
  split; [apply (rt_sorted _ _ _ _ _ _ _ _ _ _ _ _ _ _ RT)|]. split; [apply ac_from_antichain|]. split; [|split; [|split]].
  - apply Forall_forall. intros t Ht. unfold ac_from in Ht. apply ac_extend_incl in Ht as [[]|Ht]. apply in_map_iff in Ht as ([k p] & <- & Hkp). cbn [snd].
    destruct (Hnx _ Hkp) as (_ & Hu & Hs0). split; [|apply ac_less_equal_spec; exact Hu].
    destruct Hs0 as [H|(s & Hs & L)]; [eapply HP; eauto|]. apply Seeds in Hs as ((h & Hh & L') & _). exists h. split; auto. eapply tle_trans; eauto.
  - intros k p Hkp. destruct (Hnx _ Hkp) as (_ & H & _). split; [|apply ac_less_equal_spec; auto]. apply ac_from_beyond, beyond_in. change p with (snd (k, p)). apply in_map; auto.
  - intros k p Hkp. destruct (Hnx _ Hkp) as (_ & _ & [H|(s & Hs & L)]); auto. right. apply Seeds in Hs as (_ & H1 & H2). exists s. auto.
  - intros k t Ot Bt Hp v. rewrite Ofc, !flat_map_app, of_key_app, acc_app, T6.
    assert (Td : todo contents1 input 0 pending k \/ ~ todo contents1 input 0 pending k).
    { destruct (in_dec eq_dec k (map fst (union_trie (tries contents1 input)))) as [H|H]; [left; left; apply In_nth_error in H as (n & Hn); exists n; split; [lia|auto]|].
      destruct (in_dec eq_dec k (map fst pending)) as [H'|H']; [left; right; auto|]. right. intros [(n & _ & Hn)|H0]; [apply nth_error_In in Hn|]; auto. }
    destruct Td as [Td|Td].
    + rewrite (acc_of_key k (concat (concat pushed))). apply (rt_main _ _ _ _ _ _ _ _ _ _ _ _ _ _ RT k t Td Ot Bt Hp v).
    + assert (Nk : of_key k (flat_map contents1 input) = []).
      { apply union_none. intros H. apply Td. left. apply In_nth_error in H as (n & Hn). exists n. split; [lia|auto]. }
      rewrite Nk, app_nil_r, acc_of_key, (acc_of_key k (concat (concat pushed))). rewrite (acc_other (concat (concat pushed))).
      * rewrite dplus_0_r. rewrite <- acc_of_key. apply Hbase; auto. intros p H. exfalso. apply Td. right. change k with (fst (k, p)). apply in_map; auto.
      * pose proof (rt_out _ _ _ _ _ _ _ _ _ _ _ _ _ _ RT) as Ho. eapply Forall_impl; [|exact Ho]. cbv beta. intros u (H & _) E. rewrite E in H. auto.
Qed.
End Round.
