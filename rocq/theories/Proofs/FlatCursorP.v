(** * Positions in a trie, described by its list of updates *)
From Coq Require Import Arith Lia.
From Verif Require Import Base.Arrays Base.Collections Spec.Presents Proofs.CursorP Proofs.TrieP Base.Order.

Section Find.
Context {A : Type}.
Implicit Types l : list A.
Lemma find_at f l n x : nth_error l n = Some x -> f x = true -> (forall i y, i < n -> nth_error l i = Some y -> f y = false) -> find f l = Some x.
Proof.
  revert n; induction l as [|a l IH]; intros [|n] E Hx HF; cbn [nth_error find] in *; try discriminate.
  - inversion E; subst. rewrite Hx; auto.
  - rewrite (HF 0 a) by (auto; lia). apply (IH n); auto. intros i y Hi Ey. apply (HF (S i) y); auto; lia.
Qed.
Lemma find_none_all f l : (forall y, In y l -> f y = false) -> find f l = None.
Proof. induction l as [|a l IH]; intros H; simpl; auto. rewrite H by (simpl; auto). apply IH. intros y Hy; apply H; simpl; auto. Qed.
Lemma find_split f l n : (forall i y, nth_error l i = Some y -> f y = (n <=? i)) -> find f l = nth_error l n.
Proof.
  intros H. destruct (nth_error l n) as [x|] eqn:E.
  - apply (find_at f l n x E). rewrite (H n x E). apply Nat.leb_refl.
    intros i y Hi Ey. rewrite (H i y Ey). apply Nat.leb_gt; auto.
  - apply find_none_all. intros y Hy. apply In_nth_error in Hy as (i & Ey). rewrite (H i y Ey).
    apply Nat.leb_gt. apply nth_error_None in E. assert (i < length l) by (apply nth_error_Some; congruence). lia.
Qed.
Lemma find_app_none f l1 l2 : find f l1 = None -> find f (l1 ++ l2) = find f l2.
Proof. induction l1 as [|a l1 IH]; simpl; auto. destruct (f a); [discriminate|auto]. Qed.
Lemma find_app_some f l1 l2 x : find f l1 = Some x -> find f (l1 ++ l2) = Some x.
Proof. induction l1 as [|a l1 IH]; simpl; [discriminate|]. destruct (f a); auto. Qed.
Lemma find_ext f g l : (forall x, In x l -> f x = g x) -> find f l = find g l.
Proof. induction l as [|a l IH]; intros H; simpl; auto. rewrite (H a) by (simpl; auto). rewrite IH; auto. intros x Hx; apply H; simpl; auto. Qed.
End Find.

Lemma sorted_nth {A} {OA : Ord A} (l : list A) i j a b : strictly_sorted l -> nth_error l i = Some a -> nth_error l j = Some b -> i < j -> lt a b.
Proof.
  revert i j; induction l as [|x l IH]; intros i j H Ei Ej Hij; [destruct i; discriminate|].
  apply strictly_sorted_cons_inv in H as [H HF]. destruct j as [|j]; [lia|]. cbn [nth_error] in Ej.
  destruct i as [|i]; cbn [nth_error] in Ei.
  - inversion Ei; subst. apply (proj1 (Forall_forall _ _) HF). eapply nth_error_In; eauto.
  - apply (IH i j); auto; lia.
Qed.

Section Flat.
Context {K V T R : Type} {OK : Ord K} {OV : Ord V} {TT : Time T} {DR : Diff R}.
Local Notation U := (K * V * T * R)%type.
Local Notation trie := (trie K V T R).
Implicit Types (us : list U) (tr : trie) (p : pos).
Definition fkey (u : U) : K := fst (fst (fst u)).
Definition fval (u : U) : V := snd (fst (fst u)).

(** The key, if any, and the value, if any, of a position. *)
Definition place := option (K * option V).
Definition at_first (o : option U) : place := option_map (fun u => (fkey u, Some (fval u))) o.
Definition first_val (o : option U) : option V := option_map fval o.
Definition fmove us (s : place) (op : nav K V) : place :=
  match op, s with
  | RewindKeys, _ => at_first (find (fun _ => true) us)
  | StepKey, Some (k, _) => at_first (find (fun u => ltb k (fkey u)) us)
  | SeekKey k', Some (k, _) => at_first (find (fun u => leb k (fkey u) && leb k' (fkey u)) us)
  | StepVal, Some (k, Some w) => Some (k, first_val (find (fun u => eqb (fkey u) k && ltb w (fval u)) us))
  | SeekVal v, Some (k, Some w) => Some (k, first_val (find (fun u => eqb (fkey u) k && (leb w (fval u) && leb v (fval u))) us))
  | RewindVals, Some (k, _) => Some (k, first_val (find (fun u => eqb (fkey u) k) us))
  | _, s => s
  end.
Definition times_at us (k : K) (v : V) : list (T * R) :=
  map (fun u => (snd (fst u), snd u)) (filter (fun u => eqb (fkey u) k && eqb (fval u) v) us).
Definition fobs us (s : place) : option (K * option (V * list (T * R))) :=
  option_map (fun kv => (fst kv, option_map (fun v => (v, times_at us (fst kv) v)) (snd kv))) s.
Definition flegal (s : place) (op : nav K V) : Prop :=
  match op with StepVal | SeekVal _ | RewindVals => s <> None | _ => True end.

Definition sem tr p : place := option_map (fun k => (k, at_val tr p)) (at_key tr p).
Definition in_range tr p : Prop := kp p <= length tr /\ vp p <= length (cur_vals tr p).

Lemma prefix_len_spec {A} f (l : list A) i x : nth_error l i = Some x ->
  (i < prefix_len f l -> f x = true) /\ (i = prefix_len f l -> f x = false).
Proof.
  revert i; induction l as [|a l IH]; intros i E; [destruct i; discriminate|]. cbn [prefix_len].
  destruct i as [|i]; cbn [nth_error] in E.
  - inversion E; subst. destruct (f x) eqn:Ef; split; intros; auto; lia.
  - destruct (f a) eqn:Ef; [|split; intros; lia]. destruct (IH i E) as [H1 H2]. split; intros; [apply H1|apply H2]; lia.
Qed.
Lemma prefix_len_le {A} f (l : list A) : prefix_len f l <= length l.
Proof. induction l as [|a l IH]; simpl; auto. destruct (f a); simpl; lia. Qed.

Lemma legal_flegal tr p op : legal tr p op <-> flegal (sem tr p) op.
Proof. unfold legal, flegal, sem. destruct op; try tauto; destruct (at_key tr p); simpl; split; intros H; congruence. Qed.

Lemma nth_skipn {A} (l : list A) n i : nth_error (skipn n l) i = nth_error l (n + i).
Proof. revert l; induction n as [|n IH]; intros [|a l]; simpl; auto; destruct i; auto. Qed.

Lemma in_range_move tr p op : in_range tr p -> in_range tr (move tr p op).
Proof.
  intros [H1 H2]. unfold in_range. destruct op; cbn [move kp vp].
  - split; [apply Nat.le_min_r|lia].
  - split; [|lia]. pose proof (prefix_len_le (fun e => ltb (fst e) k) (skipn (kp p) tr)) as H. rewrite skipn_length in H. lia.
  - split; auto. unfold cur_vals at 2; cbn [kp]. apply Nat.le_min_r.
  - split; auto. pose proof (prefix_len_le (fun e => ltb (fst e) v) (skipn (vp p) (cur_vals tr p))) as H. rewrite skipn_length in H.
    unfold cur_vals at 2; cbn [kp]. fold (cur_vals tr p). lia.
  - unfold start; cbn [kp vp]; lia.
  - split; [auto|lia].
Qed.

(** Groups of updates, by one component. *)
Definition rows_of (e : K * list (V * list (T * R))) : list U :=
  flat_map (fun vu => map (fun x => (fst e, fst vu, fst x, snd x)) (snd vu)) (snd e).
Lemma flat_rows tr : flat tr = flat_map rows_of tr.
Proof. reflexivity. Qed.
Definition head_of (e : K * list (V * list (T * R))) : place := match snd e with x :: _ => Some (fst e, Some (fst x)) | [] => None end.

Lemma rows_key e u : In u (rows_of e) -> fkey u = fst e.
Proof. unfold rows_of. intros H. apply in_flat_map in H as (x & _ & H). apply in_map_iff in H as (y & <- & _). reflexivity. Qed.

Lemma wf_vals_head k (vs : list (V * list (T * R))) : wf_vals vs -> exists v t r l vs', vs = (v, (t, r) :: l) :: vs' /\ exists rest, rows_of (k, vs) = (k, v, t, r) :: rest.
Proof.
  intros (Hn & _ & HF). destruct vs as [|[v ts] vs']; [congruence|]. apply Forall_inv in HF as [Hts _]. cbn [snd] in Hts.
  destruct ts as [|[t r] l]; [congruence|]. exists v, t, r, l, vs'. split; auto. unfold rows_of; cbn [snd fst flat_map map app]. eauto.
Qed.

Lemma find_keys tr (Q : K -> bool) : wf_trie tr ->
  at_first (find (fun u => Q (fkey u)) (flat tr)) = match find (fun e => Q (fst e)) tr with Some e => head_of e | None => None end.
Proof.
  intros [_ HF]. rewrite flat_rows. induction tr as [|e tr IH]; cbn [flat_map find]; auto.
  apply Forall_cons_iff in HF as [He HF]. destruct e as [k vs]. cbn [fst snd] in *.
  destruct (wf_vals_head k vs He) as (v & t & r & l & vs' & -> & rest & E). destruct (Q k) eqn:EQ.
  - rewrite E. cbn [app find]. unfold fkey at 1; cbn [fst]. rewrite EQ. reflexivity.
  - rewrite find_app_none; [apply IH; auto|]. apply find_none_all. intros u Hu. rewrite (rows_key _ _ Hu). exact EQ.
Qed.

Lemma head_sem tr p : wf_trie tr -> vp p = 0 -> sem tr p = match nth_error tr (kp p) with Some e => head_of e | None => None end.
Proof.
  intros [_ HF] E0. unfold sem, at_key, at_val, cur_vals. rewrite E0. destruct (nth_error tr (kp p)) as [[k vs]|] eqn:E; auto.
  apply nth_error_In in E. apply (proj1 (Forall_forall _ _) HF) in E. cbn [snd] in E. unfold head_of; cbn [fst snd option_map].
  destruct (wf_vals_head k vs E) as (v & t & r & l & vs' & -> & _). reflexivity.
Qed.

Lemma key_at tr i e : wf_trie tr -> nth_error tr i = Some e -> nth_error (map fst tr) i = Some (fst e).
Proof. intros _ E. erewrite map_nth_error; eauto. Qed.

Lemma keys_order tr i j e f : wf_trie tr -> nth_error tr i = Some e -> nth_error tr j = Some f -> i < j -> lt (fst e) (fst f).
Proof. intros W Ei Ej H. destruct W as [W _]. eapply (sorted_nth (map fst tr)); eauto; erewrite map_nth_error; eauto. Qed.

Lemma find_vals_in k (vs : list (V * list (T * R))) (Q : V -> bool) : Forall (fun x => snd x <> [] /\ consolidated (snd x)) vs ->
  first_val (find (fun u => eqb (fkey u) k && Q (fval u)) (rows_of (k, vs))) = option_map fst (find (fun x => Q (fst x)) vs).
Proof.
  unfold rows_of; cbn [fst snd]. induction vs as [|[v ts] vs IH]; intros HF; cbn [flat_map find]; auto.
  apply Forall_cons_iff in HF as [[Hn _] HF]. cbn [snd] in Hn. destruct ts as [|[t r] ts]; [congruence|]. cbn [fst snd map].
  destruct (Q v) eqn:EQ.
  - cbn [app find]. unfold fkey at 1, fval at 1; cbn [fst snd]. rewrite eqb_refl, EQ. reflexivity.
  - rewrite find_app_none; [apply IH; auto|]. apply find_none_all. intros u Hu.
    assert (Ev : fval u = v) by (destruct Hu as [<-|Hu]; [reflexivity|apply in_map_iff in Hu as (y & <- & _); reflexivity]).
    rewrite Ev, EQ. apply Bool.andb_false_r.
Qed.

Lemma find_vals tr i k vs (Q : V -> bool) : wf_trie tr -> nth_error tr i = Some (k, vs) ->
  first_val (find (fun u => eqb (fkey u) k && Q (fval u)) (flat tr)) = option_map fst (find (fun x => Q (fst x)) vs).
Proof.
  intros W E. rewrite flat_rows. apply nth_error_split in E as (t1 & t2 & -> & _). destruct W as [W1 W2].
  assert (H1 : forall e, In e t1 -> fst e <> k).
  { intros e He Ek. apply In_nth_error in He as (a & Ea). assert (a < length t1) by (apply nth_error_Some; congruence).
    assert (HL : lt (fst e) k).
    { eapply (sorted_nth (map fst (t1 ++ (k, vs) :: t2)) a (length t1)); eauto.
      - erewrite map_nth_error; eauto. rewrite nth_error_app1; eauto.
      - erewrite map_nth_error; [|rewrite nth_error_app2, Nat.sub_diag by lia; reflexivity]. reflexivity. }
    rewrite Ek in HL. exact (lt_irrefl _ HL). }
  assert (H2 : forall e, In e t2 -> fst e <> k).
  { intros e He Ek. apply In_nth_error in He as (a & Ea).
    assert (HL : lt k (fst e)).
    { eapply (sorted_nth (map fst (t1 ++ (k, vs) :: t2)) (length t1) (length t1 + S a)); eauto; [| |lia].
      - erewrite map_nth_error; [|rewrite nth_error_app2, Nat.sub_diag by lia; reflexivity]. reflexivity.
      - erewrite map_nth_error; eauto. rewrite nth_error_app2 by lia. replace (length t1 + S a - length t1) with (S a) by lia. exact Ea. }
    rewrite Ek in HL. exact (lt_irrefl _ HL). }
  assert (N : forall t, (forall e, In e t -> fst e <> k) -> find (fun u => eqb (fkey u) k && Q (fval u)) (flat_map rows_of t) = None).
  { intros t Ht. apply find_none_all. intros u Hu. apply in_flat_map in Hu as (e & He & Hu). rewrite (rows_key _ _ Hu).
    destruct (eqb_spec (fst e) k); auto. exfalso; eapply Ht; eauto. }
  rewrite flat_map_app. rewrite find_app_none by (apply N; auto). cbn [flat_map].
  apply Forall_app in W2 as [_ W2]. apply Forall_inv in W2. destruct W2 as (_ & _ & W2). cbn [snd] in W2.
  destruct (find (fun u : U => eqb (fkey u) k && Q (fval u)) (rows_of (k, vs))) as [u|] eqn:Ef.
  - rewrite (find_app_some _ _ _ _ Ef), <- Ef. apply find_vals_in; auto.
  - rewrite find_app_none by exact Ef. rewrite N by auto. rewrite <- (find_vals_in k vs Q W2), Ef. reflexivity.
Qed.

Lemma vals_order tr i k vs a b x y : wf_trie tr -> nth_error tr i = Some (k, vs) -> nth_error vs a = Some x -> nth_error vs b = Some y -> a < b -> lt (fst x) (fst y).
Proof.
  intros [_ W] E Ea Eb H. apply nth_error_In in E. apply (proj1 (Forall_forall _ _) W) in E as (_ & E & _). cbn [snd] in E.
  eapply (sorted_nth (map fst vs)); eauto; erewrite map_nth_error; eauto.
Qed.

Lemma times_flat tr i k vs j v ts : wf_trie tr -> nth_error tr i = Some (k, vs) -> nth_error vs j = Some (v, ts) -> times_at (flat tr) k v = ts.
Proof.
  intros W E Ej. unfold times_at. rewrite flat_gflat.
  assert (H : forall l, strictly_sorted (map fst l) -> In ((k, v), ts) l ->
    filter (fun u : U => eqb (fkey u) k && eqb (fval u) v) (gflat (A:=K*V) l) = map (fun y => (k, v, fst y, snd y)) ts).
  { induction l as [|[[k1 v1] t1] l IH]; intros Hs Hin; [destruct Hin|]. apply strictly_sorted_cons_inv in Hs as [Hs HF].
    unfold gflat; cbn [flat_map]. rewrite filter_app. cbn [fst snd]. fold (gflat (A:=K*V) l).
    destruct Hin as [Ein|Hin].
    - inversion Ein; subst. replace (filter _ (gflat l)) with (@nil U).
      + rewrite app_nil_r. clear. induction ts as [|t ts IH]; cbn [map filter]; auto. unfold fkey at 1, fval at 1; cbn [fst snd]. rewrite !eqb_refl; cbn [andb]. f_equal; exact IH.
      + symmetry. assert (G : forall u, In u (gflat l) -> (eqb (fkey u) k && eqb (fval u) v) = false).
        { intros u Hu. apply in_gflat in Hu as (x & Hx & Eu & _). destruct (eqb_spec (fkey u) k) as [Ek|]; auto. destruct (eqb_spec (fval u) v) as [Ev|]; auto. exfalso.
          assert (Hl : lt (A:=K*V) (k, v) (fst x)) by (apply (proj1 (Forall_forall _ _) HF), in_map; auto).
          assert (Ex : fst x = (k, v)) by (rewrite <- Eu; destruct u as [[[] ?] ?]; unfold fkey in Ek; unfold fval in Ev; cbn in *; congruence).
          rewrite Ex in Hl. exact (lt_irrefl _ Hl). }
        revert G. generalize (gflat (A:=K*V) l) as g. clear. induction g as [|u g IH]; intros G; cbn [filter]; auto. rewrite G by (simpl; auto). apply IH; intros; apply G; simpl; auto.
    - replace (filter _ (map _ t1)) with (@nil U).
      + apply (IH Hs Hin).
      + symmetry. assert (Hl : lt (A:=K*V) (k1, v1) (k, v)) by (apply (proj1 (Forall_forall _ _) HF); apply (in_map fst _ _ Hin)).
        assert (N : (eqb k1 k && eqb v1 v) = false).
        { destruct (eqb_spec k1 k) as [->|]; auto. destruct (eqb_spec v1 v) as [->|]; auto. exfalso; exact (lt_irrefl _ Hl). }
        revert N; clear. intros N. induction t1 as [|t t1 IH]; cbn [map filter]; auto. unfold fkey at 1, fval at 1; cbn [fst snd]. rewrite N. exact IH. }
  rewrite H.
  - rewrite map_map. cbn [fst snd]. rewrite <- (map_id ts) at 2. apply map_ext. intros []; reflexivity.
  - apply gflat_sorted; [apply W|]. eapply Forall_impl; [|apply W]. intros x (_ & Hx & _); exact Hx.
  - unfold gflat. apply in_flat_map. exists (k, vs). split; [eapply nth_error_In; eauto|]. cbn [fst snd]. apply in_map_iff.
    exists (v, ts). split; auto. eapply nth_error_In; eauto.
Qed.

Lemma observation_fobs tr p : wf_trie tr -> observation tr p = fobs (flat tr) (sem tr p).
Proof.
  intros W. unfold observation, sem, fobs. destruct (at_key tr p) as [k|] eqn:Ek; auto. cbn [option_map fst snd]. f_equal. f_equal.
  destruct (at_val tr p) as [v|] eqn:Ev; auto. cbn [option_map]. f_equal. f_equal.
  unfold at_key in Ek. unfold at_val, cur_vals in Ev. unfold at_times, cur_vals. destruct (nth_error tr (kp p)) as [[k' vs]|] eqn:E; [|discriminate].
  cbn [option_map fst] in Ek. inversion Ek; subst. destruct (nth_error vs (vp p)) as [[v' ts]|] eqn:E'; [|discriminate].
  cbn [option_map fst] in Ev. inversion Ev; subst. symmetry. eapply times_flat; eauto.
Qed.

Lemma sem_move tr p op : wf_trie tr -> in_range tr p -> flegal (sem tr p) op -> sem tr (move tr p op) = fmove (flat tr) (sem tr p) op.
Proof.
  intros W [Hr1 Hr2] HL. destruct op; cbn [fmove].
  - (* StepKey *) rewrite head_sem by auto. cbn [move kp]. unfold sem, at_key. destruct (nth_error tr (kp p)) as [[k vs]|] eqn:E; cbn [option_map fst].
    + rewrite (find_keys tr (fun x => ltb k x)) by auto. rewrite (find_split _ tr (S (kp p))).
      * assert (kp p < length tr) by (apply nth_error_Some; congruence). rewrite Nat.min_l by lia. reflexivity.
      * intros i [k' vs'] Ei. cbn [fst]. destruct (S (kp p) <=? i) eqn:Ec.
        -- apply Nat.leb_le in Ec. apply ltb_lt. apply (keys_order tr _ _ _ _ W E Ei). lia.
        -- apply Nat.leb_gt in Ec. apply ltb_ge. destruct (Nat.eq_dec i (kp p)) as [->|].
           ++ rewrite E in Ei; inversion Ei; apply le_refl.
           ++ apply lt_le. apply (keys_order tr _ _ _ _ W Ei E). lia.
    + apply nth_error_None in E. rewrite Nat.min_r by lia. assert (En : nth_error tr (length tr) = None) by (apply nth_error_None; lia). rewrite En; auto.
  - (* SeekKey *) rewrite head_sem by auto. cbn [move kp]. unfold sem, at_key. destruct (nth_error tr (kp p)) as [[k0 vs]|] eqn:E; cbn [option_map fst].
    + rewrite (find_keys tr (fun x => leb k0 x && leb k x)) by auto. rewrite (find_split _ tr (kp p + prefix_len (fun e => ltb (fst e) k) (skipn (kp p) tr))); auto.
      set (n := prefix_len _ _). intros i [k' vs'] Ei. cbn [fst].
      destruct (Nat.lt_ge_cases i (kp p)) as [Hi|Hi].
      * replace (kp p + n <=? i) with false by (symmetry; apply Nat.leb_gt; lia).
        replace (leb k0 k') with false; auto. symmetry. apply leb_gt. apply (keys_order tr _ _ _ _ W Ei E Hi).
      * replace (leb k0 k') with true.
        2:{ symmetry; apply leb_le. destruct (Nat.eq_dec i (kp p)) as [->|]; [rewrite E in Ei; inversion Ei; apply le_refl|].
            apply lt_le. apply (keys_order tr _ _ _ _ W E Ei). lia. }
        cbn [andb]. destruct (prefix_len_spec (fun e => ltb (fst e) k) (skipn (kp p) tr) (i - kp p) (k', vs')) as [P1 P2].
        { rewrite nth_skipn. replace (kp p + (i - kp p)) with i by lia. exact Ei. }
        fold n in P1, P2. cbn [fst] in P1, P2. destruct (Nat.lt_ge_cases i (kp p + n)) as [Hn|Hn].
        -- replace (kp p + n <=? i) with false by (symmetry; apply Nat.leb_gt; lia). apply leb_gt, ltb_lt, P1. lia.
        -- replace (kp p + n <=? i) with true by (symmetry; apply Nat.leb_le; lia). apply leb_le.
           destruct (Nat.eq_dec i (kp p + n)) as [Hin|Hin]; [apply ltb_ge, P2; lia|].
           assert (Hs : exists e, nth_error tr (kp p + n) = Some e).
           { destruct (nth_error tr (kp p + n)) as [e|] eqn:En; eauto. apply nth_error_None in En. assert (i < length tr) by (apply nth_error_Some; congruence). lia. }
           destruct Hs as ([k2 vs2] & En). apply le_trans with k2.
           ++ destruct (prefix_len_spec (fun e => ltb (fst e) k) (skipn (kp p) tr) n (k2, vs2)) as [_ P3]; [rewrite nth_skipn; exact En|]. apply ltb_ge, P3. reflexivity.
           ++ apply lt_le. apply (keys_order tr _ _ _ _ W En Ei). lia.
    + apply nth_error_None in E. rewrite skipn_all2 by lia. cbn [prefix_len]. rewrite Nat.add_0_r.
      assert (En : nth_error tr (kp p) = None) by (apply nth_error_None; lia). rewrite En. reflexivity.
  - (* StepVal *) cbn [flegal] in HL. unfold sem, at_key, at_val, cur_vals in *. cbn [move kp vp]. unfold cur_vals.
    destruct (nth_error tr (kp p)) as [[k vs]|] eqn:E; cbn [option_map fst] in *; [|congruence].
    destruct (nth_error vs (vp p)) as [[w ts]|] eqn:Ew; cbn [option_map fst].
    + f_equal. f_equal. rewrite (find_vals tr (kp p) k vs (fun x => ltb w x)) by auto.
      rewrite (find_split _ vs (S (vp p))).
      * assert (vp p < length vs) by (apply nth_error_Some; congruence). rewrite Nat.min_l by lia. reflexivity.
      * intros i [v' ts'] Ei. cbn [fst]. destruct (S (vp p) <=? i) eqn:Ec.
        -- apply Nat.leb_le in Ec. apply ltb_lt. apply (vals_order tr _ _ _ _ _ _ _ W E Ew Ei). lia.
        -- apply Nat.leb_gt in Ec. apply ltb_ge. destruct (Nat.eq_dec i (vp p)) as [->|].
           ++ rewrite Ew in Ei; inversion Ei; apply le_refl.
           ++ apply lt_le. apply (vals_order tr _ _ _ _ _ _ _ W E Ei Ew). lia.
    + f_equal. f_equal. apply nth_error_None in Ew. rewrite Nat.min_r by lia. assert (En : nth_error vs (length vs) = None) by (apply nth_error_None; lia). rewrite En; auto.
  - (* SeekVal *) cbn [flegal] in HL. unfold sem, at_key, at_val, cur_vals in *. cbn [move kp vp]. unfold cur_vals.
    destruct (nth_error tr (kp p)) as [[k vs]|] eqn:E; cbn [option_map fst] in *; [|congruence].
    destruct (nth_error vs (vp p)) as [[w ts]|] eqn:Ew; cbn [option_map fst].
    + f_equal. f_equal. rewrite (find_vals tr (kp p) k vs (fun x => leb w x && leb v x)) by auto.
      rewrite (find_split _ vs (vp p + prefix_len (fun e => ltb (fst e) v) (skipn (vp p) vs))); auto.
      set (n := prefix_len _ _). intros i [v' ts'] Ei. cbn [fst].
      destruct (Nat.lt_ge_cases i (vp p)) as [Hi|Hi].
      * replace (vp p + n <=? i) with false by (symmetry; apply Nat.leb_gt; lia).
        replace (leb w v') with false; auto. symmetry. apply leb_gt. apply (vals_order tr _ _ _ _ _ _ _ W E Ei Ew Hi).
      * replace (leb w v') with true.
        2:{ symmetry; apply leb_le. destruct (Nat.eq_dec i (vp p)) as [->|]; [rewrite Ew in Ei; inversion Ei; apply le_refl|].
            apply lt_le. apply (vals_order tr _ _ _ _ _ _ _ W E Ew Ei). lia. }
        cbn [andb]. destruct (prefix_len_spec (fun e => ltb (fst e) v) (skipn (vp p) vs) (i - vp p) (v', ts')) as [P1 P2].
        { rewrite nth_skipn. replace (vp p + (i - vp p)) with i by lia. exact Ei. }
        fold n in P1, P2. cbn [fst] in P1, P2. destruct (Nat.lt_ge_cases i (vp p + n)) as [Hn|Hn].
        -- replace (vp p + n <=? i) with false by (symmetry; apply Nat.leb_gt; lia). apply leb_gt, ltb_lt, P1. lia.
        -- replace (vp p + n <=? i) with true by (symmetry; apply Nat.leb_le; lia). apply leb_le.
           destruct (Nat.eq_dec i (vp p + n)) as [Hin|Hin]; [apply ltb_ge, P2; lia|].
           assert (Hs : exists e, nth_error vs (vp p + n) = Some e).
           { destruct (nth_error vs (vp p + n)) as [e|] eqn:En; eauto. apply nth_error_None in En. assert (i < length vs) by (apply nth_error_Some; congruence). lia. }
           destruct Hs as ([k2 vs2] & En). apply le_trans with k2.
           ++ destruct (prefix_len_spec (fun e => ltb (fst e) v) (skipn (vp p) vs) n (k2, vs2)) as [_ P3]; [rewrite nth_skipn; exact En|]. apply ltb_ge, P3. reflexivity.
           ++ apply lt_le. apply (vals_order tr _ _ _ _ _ _ _ W E En Ei). lia.
    + f_equal. f_equal. apply nth_error_None in Ew. rewrite skipn_all2 by lia. cbn [prefix_len]. rewrite Nat.add_0_r.
      assert (En : nth_error vs (vp p) = None) by (apply nth_error_None; lia). rewrite En. reflexivity.
  - (* RewindKeys *) rewrite head_sem by auto. cbn [move kp start]. rewrite (find_keys tr (fun _ => true)) by auto.
    rewrite (find_split _ tr 0) by reflexivity. destruct (sem tr p) as [[? []]|]; reflexivity.
  - (* RewindVals *) cbn [flegal] in HL. unfold sem, at_key, at_val, cur_vals in *. cbn [move kp vp]. unfold cur_vals.
    destruct (nth_error tr (kp p)) as [[k vs]|] eqn:E; cbn [option_map fst] in *; [|congruence].
    f_equal. f_equal.
    transitivity (first_val (find (fun u => eqb (fkey u) k && (fun _ => true) (fval u)) (flat tr))).
    + rewrite (find_vals tr (kp p) k vs (fun _ => true)) by auto. rewrite (find_split _ vs 0) by reflexivity. reflexivity.
    + f_equal. apply find_ext. intros x _. apply Bool.andb_true_r.
Qed.

Lemma sem_start tr : wf_trie tr -> in_range tr start /\ sem tr start = fmove (flat tr) None RewindKeys.
Proof.
  intros W. assert (HR : in_range tr start) by (split; cbn [start kp vp]; lia). split; auto.
  change (sem tr start) with (sem tr (move tr start RewindKeys)). rewrite sem_move by (auto; exact I).
  destruct (sem tr start) as [[? []]|]; reflexivity.
Qed.
End Flat.
