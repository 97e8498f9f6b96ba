(** * Tries: grouping, merging, compaction *)
From Verif Require Import Base.Arrays Base.Collections Base.Merging Spec.CursorSpec Model.LatticeM Model.ConsolidationM
  Proofs.LatticeP Proofs.ConsolidationP.

(** ** Generic lists of groups *)
Section Groups.
Context {A B : Type} {OA : Ord A}.

(** Merge two key-sorted lists, combining the contents of equal keys. *)
Fixpoint mergew (f : B -> B -> B) (l1 : list (A * B)) : list (A * B) -> list (A * B) :=
  fix aux (l2 : list (A * B)) : list (A * B) :=
    match l1, l2 with
    | [], _ => l2
    | _, [] => l1
    | (a1, b1) :: l1', (a2, b2) :: l2' =>
        match cmp a1 a2 with
        | Lt => (a1, b1) :: mergew f l1' l2
        | Eq => (a1, f b1 b2) :: mergew f l1' l2'
        | Gt => (a2, b2) :: aux l2'
        end
    end.

Lemma mergew_nil_r f l : mergew f l [] = l.
Proof. destruct l as [|[]]; reflexivity. Qed.
Lemma mergew_nil_l f l : mergew f [] l = l.
Proof. destruct l as [|[]]; reflexivity. Qed.
Lemma mergew_cons f a1 b1 l1 a2 b2 l2 :
  mergew f ((a1, b1) :: l1) ((a2, b2) :: l2) =
  match cmp a1 a2 with
  | Lt => (a1, b1) :: mergew f l1 ((a2, b2) :: l2)
  | Eq => (a1, f b1 b2) :: mergew f l1 l2
  | Gt => (a2, b2) :: mergew f ((a1, b1) :: l1) l2
  end.
Proof. reflexivity. Qed.

Local Arguments mergew : simpl never.

Lemma mergew_ind (P : list (A * B) -> list (A * B) -> Prop) :
  (forall l, P [] l) -> (forall l, P l []) ->
  (forall a1 b1 l1 a2 b2 l2, lt a1 a2 -> P l1 ((a2, b2) :: l2) -> P ((a1, b1) :: l1) ((a2, b2) :: l2)) ->
  (forall a b1 l1 b2 l2, P l1 l2 -> P ((a, b1) :: l1) ((a, b2) :: l2)) ->
  (forall a1 b1 l1 a2 b2 l2, lt a2 a1 -> P ((a1, b1) :: l1) l2 -> P ((a1, b1) :: l1) ((a2, b2) :: l2)) ->
  forall l1 l2, P l1 l2.
Proof.
  intros H1 H2 H3 H4 H5 l1. induction l1 as [|[a1 b1] l1 IH1]; auto.
  intros l2; induction l2 as [|[a2 b2] l2 IH2]; auto.
  destruct (cmp_spec a1 a2) as [->|H|H]; auto.
Qed.

Lemma mergew_keys f l1 l2 a : In a (map fst (mergew f l1 l2)) -> In a (map fst l1) \/ In a (map fst l2).
Proof.
  revert l1 l2; apply (mergew_ind (fun l1 l2 => In a (map fst (mergew f l1 l2)) -> In a (map fst l1) \/ In a (map fst l2))).
  - intros l; rewrite mergew_nil_l; auto.
  - intros l; rewrite mergew_nil_r; auto.
  - intros a1 b1 l1 a2 b2 l2 H IH. rewrite mergew_cons. unfold lt in H; rewrite H. simpl. intros [->|Hi]; auto.
    destruct (IH Hi) as [|]; simpl in *; tauto.
  - intros a1 b1 l1 b2 l2 IH. rewrite mergew_cons, cmp_refl. simpl. intros [->|Hi]; auto.
    destruct (IH Hi); auto.
  - intros a1 b1 l1 a2 b2 l2 H IH. rewrite mergew_cons. apply cmp_Gt_lt in H; rewrite H. simpl. intros [->|Hi]; auto.
    destruct (IH Hi) as [|]; simpl in *; tauto.
Qed.

Lemma mergew_sorted f l1 l2 : strictly_sorted (map fst l1) -> strictly_sorted (map fst l2) ->
  strictly_sorted (map fst (mergew f l1 l2)).
Proof.
  revert l1 l2; apply (mergew_ind (fun l1 l2 => strictly_sorted (map fst l1) -> strictly_sorted (map fst l2) ->
    strictly_sorted (map fst (mergew f l1 l2)))).
  - intros l; rewrite mergew_nil_l; auto.
  - intros l; rewrite mergew_nil_r; auto.
  - intros a1 b1 l1 a2 b2 l2 H IH H1 H2. rewrite mergew_cons. unfold lt in H; rewrite H. simpl in *.
    apply strictly_sorted_cons_inv in H1 as [H1 F1]. pose proof (proj2 (strictly_sorted_cons_inv _ _ H2)) as F2.
    apply strictly_sorted_cons; auto. rewrite Forall_forall in *. intros x Hx. apply mergew_keys in Hx as [Hx|Hx]; auto.
    destruct Hx as [<-|Hx]; auto. eapply lt_trans; [exact H|]; auto.
  - intros a b1 l1 b2 l2 IH H1 H2. rewrite mergew_cons, cmp_refl. simpl in *.
    apply strictly_sorted_cons_inv in H1 as [H1 F1]. apply strictly_sorted_cons_inv in H2 as [H2 F2].
    apply strictly_sorted_cons; auto. rewrite Forall_forall in *. intros x Hx. apply mergew_keys in Hx as [Hx|Hx]; auto.
  - intros a1 b1 l1 a2 b2 l2 H IH H1 H2. rewrite mergew_cons. pose proof H as H'. apply cmp_Gt_lt in H'; rewrite H'. simpl in *.
    apply strictly_sorted_cons_inv in H2 as [H2 F2]. pose proof (proj2 (strictly_sorted_cons_inv _ _ H1)) as F1.
    apply strictly_sorted_cons; auto. rewrite Forall_forall in *. intros x Hx. apply mergew_keys in Hx as [Hx|Hx]; auto.
    destruct Hx as [<-|Hx]; auto. eapply lt_trans; [exact H|]; auto.
Qed.

Lemma mergew_Forall f (P : B -> Prop) l1 l2 : (forall b1 b2, P b1 -> P b2 -> P (f b1 b2)) ->
  Forall (fun x => P (snd x)) l1 -> Forall (fun x => P (snd x)) l2 -> Forall (fun x => P (snd x)) (mergew f l1 l2).
Proof.
  intros Hf. revert l1 l2; apply (mergew_ind (fun l1 l2 => Forall (fun x => P (snd x)) l1 -> Forall (fun x => P (snd x)) l2 ->
    Forall (fun x => P (snd x)) (mergew f l1 l2))).
  - intros l; rewrite mergew_nil_l; auto.
  - intros l; rewrite mergew_nil_r; auto.
  - intros a1 b1 l1 a2 b2 l2 H IH H1 H2. rewrite mergew_cons. unfold lt in H; rewrite H. inversion H1; subst. constructor; auto.
  - intros a b1 l1 b2 l2 IH H1 H2. rewrite mergew_cons, cmp_refl. inversion H1; inversion H2; subst. constructor; simpl in *; auto.
  - intros a1 b1 l1 a2 b2 l2 H IH H1 H2. rewrite mergew_cons. apply cmp_Gt_lt in H; rewrite H. inversion H2; subst. constructor; auto.
Qed.

Lemma mergew_flat_perm {X} f (h : A * B -> list X) l1 l2 :
  (forall a b1 b2, Permutation (h (a, f b1 b2)) (h (a, b1) ++ h (a, b2))) ->
  Permutation (flat_map h (mergew f l1 l2)) (flat_map h l1 ++ flat_map h l2).
Proof.
  intros Hf. revert l1 l2; apply (mergew_ind (fun l1 l2 => Permutation (flat_map h (mergew f l1 l2)) (flat_map h l1 ++ flat_map h l2))).
  - intros l; rewrite mergew_nil_l; reflexivity.
  - intros l; rewrite mergew_nil_r; simpl; rewrite app_nil_r; reflexivity.
  - intros a1 b1 l1 a2 b2 l2 H IH. rewrite mergew_cons. unfold lt in H; rewrite H. simpl. rewrite <- app_assoc.
    apply Permutation_app_head. exact IH.
  - intros a b1 l1 b2 l2 IH. rewrite mergew_cons, cmp_refl. simpl. rewrite Hf, IH, <- !app_assoc.
    apply Permutation_app_head. rewrite !app_assoc. apply Permutation_app_tail. apply Permutation_app_comm.
  - intros a1 b1 l1 a2 b2 l2 H IH. rewrite mergew_cons. apply cmp_Gt_lt in H; rewrite H.
    change (flat_map h ((a2, b2) :: mergew f ((a1, b1) :: l1) l2)) with (h (a2, b2) ++ flat_map h (mergew f ((a1, b1) :: l1) l2)).
    change (flat_map h ((a2, b2) :: l2)) with (h (a2, b2) ++ flat_map h l2).
    rewrite IH. rewrite !app_assoc. apply Permutation_app_tail. apply Permutation_app_comm.
Qed.
End Groups.

Section Keepmap.
Context {A B C : Type} {OA : Ord A}.
(** Keep a group if its image is not empty. *)
Definition keepmap (g : B -> list C) (x : A * B) : list (A * list C) :=
  match g (snd x) with [] => [] | l => [(fst x, l)] end.

Lemma keepmap_keys g l a : In a (map fst (flat_map (keepmap g) l)) -> In a (map fst l).
Proof.
  intros H. apply in_map_iff in H as (x & <- & H). apply in_flat_map in H as (y & Hy & H).
  unfold keepmap in H. destruct (g (snd y)); [destruct H|]. destruct H as [<-|[]]. simpl. apply in_map; auto.
Qed.

Lemma keepmap_sorted g l : strictly_sorted (map fst l) -> strictly_sorted (map fst (flat_map (keepmap g) l)).
Proof.
  induction l as [|x l IH]; simpl; intros H; [constructor|].
  apply strictly_sorted_cons_inv in H as [H F]. rewrite map_app. unfold keepmap at 1.
  destruct (g (snd x)); simpl; auto. apply strictly_sorted_cons; auto.
  rewrite Forall_forall in *. intros y Hy. apply F, keepmap_keys with g; auto.
Qed.

Lemma keepmap_flat {X} g (h : A * list C -> list X) l : (forall a, h (a, []) = []) ->
  flat_map h (flat_map (keepmap g) l) = flat_map (fun x => h (fst x, g (snd x))) l.
Proof.
  intros H0. induction l as [|x l IH]; simpl; auto. rewrite flat_map_app, IH. f_equal.
  unfold keepmap. destruct (g (snd x)); simpl; rewrite ?app_nil_r; auto.
Qed.

Lemma keepmap_Forall g (P : A * list C -> Prop) l :
  Forall (fun x => g (snd x) <> [] -> P (fst x, g (snd x))) l -> Forall P (flat_map (keepmap g) l).
Proof.
  induction 1 as [|x l H HF IH]; simpl; [constructor|]. apply Forall_app; split; auto.
  unfold keepmap. destruct (g (snd x)) eqn:E; constructor; auto. apply H; discriminate.
Qed.
End Keepmap.

Section FlatWeights.
Context {A R : Type} {OA : Ord A} {DR : Diff R}.
Lemma same_weights_flat_map {X} (g h : X -> list (A * R)) l :
  (forall x, In x l -> same_weights (g x) (h x)) -> same_weights (flat_map g l) (flat_map h l).
Proof.
  induction l as [|x l IH]; intros H; simpl; [apply same_weights_refl|].
  apply same_weights_app; [apply H; left; auto | apply IH; intros; apply H; right; auto].
Qed.
End FlatWeights.

(** ** Sorted, consolidated nesting *)
Section Nest.
Context {A B R : Type} {OA : Ord A} {OB : Ord B}.
Definition gflat (l : list (A * list (B * R))) : list (A * B * R) :=
  flat_map (fun x => map (fun y => (fst x, fst y, snd y)) (snd x)) l.

Lemma in_gflat l u : In u (gflat l) -> exists x, In x l /\ fst (fst u) = fst x /\ In (snd (fst u), snd u) (snd x).
Proof.
  unfold gflat. intros H. apply in_flat_map in H as (x & Hx & H). apply in_map_iff in H as ([b r] & <- & H).
  exists x; simpl; auto.
Qed.

Lemma gflat_sorted l : strictly_sorted (map fst l) -> Forall (fun x => strictly_sorted (map fst (snd x))) l ->
  strictly_sorted (map fst (gflat l)).
Proof.
  induction l as [|x l IH]; simpl; intros H HF; [constructor|].
  apply strictly_sorted_cons_inv in H as [H F]. inversion HF; subst.
  rewrite map_app. apply strictly_sorted_app. repeat split; auto.
  - rewrite map_map. simpl. clear - H2. revert H2. generalize (snd x). intros l. induction l as [|y l IH]; simpl; intros H; [constructor|].
    apply strictly_sorted_cons_inv in H as [H F]. apply strictly_sorted_cons; auto.
    rewrite Forall_map in *. eapply Forall_impl; [|exact F]. simpl. intros z Hz. apply lt_pair; auto.
  - intros a b Ha Hb. rewrite map_map in Ha. apply in_map_iff in Ha as (y & <- & Hy). apply in_map_iff in Hb as (u & <- & Hu).
    apply in_gflat in Hu as (z & Hz & E & _). destruct u as [[a' b'] r]; simpl in *. subst a'. apply lt_pair. left.
    rewrite Forall_forall in F. apply F, in_map; auto.
Qed.

Context {DR : Diff R}.
Lemma gflat_consolidated l : strictly_sorted (map fst l) -> Forall (fun x => consolidated (snd x)) l -> consolidated (A:=A*B) (gflat l).
Proof.
  intros H HF. split.
  - apply gflat_sorted; auto. eapply Forall_impl; [|exact HF]. intros x [Hx _]; exact Hx.
  - apply Forall_forall. intros u Hu. apply in_gflat in Hu as (x & Hx & _ & Hu).
    rewrite Forall_forall in HF. destruct (HF x Hx) as [_ HZ]. rewrite Forall_forall in HZ. apply HZ in Hu. exact Hu.
Qed.
End Nest.

(** ** Tries *)
Section Trie.
Context {K V T R : Type} {OK : Ord K} {OV : Ord V} {TT : Time T} {DR : Diff R}.
Implicit Types (tr : trie K V T R) (since : list T).

Lemma flat_gflat tr : flat tr = gflat (A:=K*V) (gflat (A:=K) tr).
Proof.
  unfold flat, gflat. induction tr as [|[k vs] tr IH]; simpl; auto.
  rewrite flat_map_app, IH. f_equal. clear. induction vs as [|[v l] vs IH]; simpl; auto. rewrite IH. reflexivity.
Qed.

Definition wf_vals (vs : list (V * list (T * R))) : Prop :=
  vs <> [] /\ strictly_sorted (map fst vs) /\ Forall (fun x => snd x <> [] /\ consolidated (snd x)) vs.
Definition wf_trie tr : Prop := strictly_sorted (map fst tr) /\ Forall (fun x => wf_vals (snd x)) tr.

Lemma wf_trie_consolidated tr : wf_trie tr -> consolidated (A:=K*V*T) (flat tr).
Proof.
  intros [H1 H2]. rewrite flat_gflat. apply gflat_consolidated.
  - apply gflat_sorted; auto. eapply Forall_impl; [|exact H2]. intros x (_ & H & _); exact H.
  - apply Forall_forall. intros x Hx. apply in_gflat in Hx as (y & Hy & _ & Hx).
    rewrite Forall_forall in H2. destruct (H2 y Hy) as (_ & _ & HF). rewrite Forall_forall in HF. apply HF in Hx. apply Hx.
Qed.

Lemma flat_add_update (u : K * V * T * R) tr : flat (add_update u tr) = u :: flat tr.
Proof.
  destruct u as [[[k v] t] r]. unfold add_update, flat. destruct tr as [|[k' [|[v' l] vs]] tr']; simpl; auto.
  destruct (eqb_spec k k') as [->|]; simpl; auto. destruct (eqb_spec v v') as [->|]; simpl; auto.
Qed.

Lemma flat_trie_of (us : list (K * V * T * R)) : flat (trie_of us) = us.
Proof. induction us as [|u us IH]; simpl; auto. rewrite flat_add_update, IH; auto. Qed.

Lemma consolidated_one (t : T) (r : R) : is_zero r = false -> consolidated [(t, r)].
Proof. intros H; split; simpl; repeat constructor; auto. Qed.

Lemma add_update_wf (u : K * V * T * R) tr : wf_trie tr -> consolidated (A:=K*V*T) (u :: flat tr) -> wf_trie (add_update u tr).
Proof.
  destruct u as [[[k v] t] r]. intros [W1 W2] HC. apply consolidated_cons_inv in HC as (_ & Hz & HF). simpl in Hz, HF.
  destruct tr as [|[k' vs'] tr'].
  - unfold add_update, wf_trie, wf_vals; simpl. repeat split; repeat constructor; simpl; try discriminate; auto.
  - inversion W2 as [|? ? Wv W2']; subst. simpl in Wv. destruct Wv as (Wn & Ws & Wl).
    destruct vs' as [|[v' l'] vs']; [contradiction Wn; auto|].
    inversion Wl as [|? ? [Wl1 Wl2] Wl3]; subst. simpl in Wl1, Wl2.
    destruct l' as [|[t' r'] l']; [contradiction Wl1; auto|].
    unfold flat in HF. simpl in HF. inversion HF as [|? ? H1 HF']; subst. simpl in H1.
    unfold add_update. apply lt_pair in H1 as [H1|[E H1]].
    2:{ inversion E; subst. rewrite !eqb_refl. split; simpl; auto. constructor; auto. repeat split; simpl; auto; try discriminate.
        constructor; auto. split; [discriminate|]. simpl. apply consolidated_cons; auto; simpl.
        apply Forall_forall. intros [t1 r1] [E1|H1']; [inversion E1; subst; auto|].
        rewrite Forall_forall in HF'. specialize (HF' (k', v', t1, r1)). simpl in HF'.
        assert (H2 : lt (k', v', t) (k', v', t1)).
        { apply HF'. apply in_or_app; left. apply in_or_app; left. apply in_map_iff. exists (t1, r1); auto. }
        apply lt_pair in H2 as [H2|[_ H2]]; [exfalso; exact (lt_irrefl _ H2)|exact H2]. }
    apply lt_pair in H1 as [H1|[-> H1]].
    + destruct (eqb_spec k k') as [->|]; [exfalso; exact (lt_irrefl _ H1)|].
      split; simpl.
      * apply strictly_sorted_cons; auto. simpl in W1. pose proof (proj2 (strictly_sorted_cons_inv _ _ W1)) as F.
        constructor; auto. eapply Forall_impl; [|exact F]. intros z. apply lt_trans; auto.
      * constructor; auto. repeat split; simpl; try discriminate; repeat constructor; simpl; auto; discriminate.
    + rewrite eqb_refl. destruct (eqb_spec v v') as [->|]; [exfalso; exact (lt_irrefl _ H1)|].
      split; simpl; auto. constructor; auto. repeat split; simpl; try discriminate.
      * apply strictly_sorted_cons; auto. simpl in Ws. pose proof (proj2 (strictly_sorted_cons_inv _ _ Ws)) as F.
        constructor; auto. eapply Forall_impl; [|exact F]. intros z. apply lt_trans; auto.
      * constructor; auto. split; [discriminate|]. apply consolidated_one; auto.
Qed.

Lemma trie_of_wf (us : list (K * V * T * R)) : consolidated (A:=K*V*T) us -> wf_trie (trie_of us).
Proof.
  induction us as [|u us IH]; intros H; simpl.
  - split; constructor.
  - apply add_update_wf.
    + apply IH. apply consolidated_cons_inv in H. tauto.
    + rewrite flat_trie_of. exact H.
Qed.

(** A well-formed trie is determined by its updates. *)
Lemma add_update_last k v t r l vs tr :
  add_update (k, v, t, r) ((k, (v, l) :: vs) :: tr) = (k, (v, (t, r) :: l) :: vs) :: tr.
Proof. unfold add_update. rewrite !eqb_refl. reflexivity. Qed.

Lemma trie_of_flat tr : wf_trie tr -> trie_of (flat tr) = tr.
Proof.
  intros [W1 W2]. induction tr as [|[k vs] tr IH]; simpl; auto.
  simpl in W1. apply strictly_sorted_cons_inv in W1 as [W1 F1]. inversion W2 as [|? ? Wv W2']; subst. simpl in Wv.
  specialize (IH W1 W2'). destruct Wv as (Wn & Ws & Wl).
  unfold trie_of in *. rewrite fold_right_app.
  change (flat_map (fun kv : K * list (V * list (T * R)) => flat_map (fun vu : V * list (T * R) =>
    map (fun tr0 : T * R => (fst kv, fst vu, fst tr0, snd tr0)) (snd vu)) (snd kv)) tr) with (flat tr).
  rewrite IH. clear IH W2 W2'.
  assert (Hk : match tr with [] => True | (k', _) :: _ => k <> k' end).
  { destruct tr as [|[k' x] tr]; auto. inversion F1; subst. simpl in *. intros ->. match goal with H : lt k' k' |- _ => exact (lt_irrefl _ H) end. }
  clear W1 F1. revert Wn Ws Wl. induction vs as [|[v l] vs IHv]; intros Wn Ws Wl; [contradiction Wn; auto|].
  simpl. rewrite fold_right_app. simpl in Ws. apply strictly_sorted_cons_inv in Ws as [Ws Fs]. inversion Wl as [|? ? [Wl1 _] Wl2]; subst.
  simpl in Wl1. clear Wn.
  assert (Hnext : exists tr1, fold_right add_update tr (flat_map (fun vu : V * list (T * R) =>
     map (fun tr0 : T * R => (k, fst vu, fst tr0, snd tr0)) (snd vu)) vs) = tr1 /\
     forall t r, add_update (k, v, t, r) tr1 = (k, (v, [(t, r)]) :: vs) :: tr).
  { destruct vs as [|[v' l'] vs].
    - simpl. exists tr. split; auto. intros t r. unfold add_update. destruct tr as [|[k' [|[v1 l1] vs1]] tr]; auto.
      destruct (eqb_spec k k'); [contradiction|]. reflexivity.
    - exists ((k, (v', l') :: vs) :: tr). split; [apply IHv; auto; discriminate|].
      intros t r. unfold add_update. rewrite eqb_refl. destruct (eqb_spec v v') as [->|]; auto.
      inversion Fs; subst. exfalso. match goal with H : lt v' v' |- _ => exact (lt_irrefl _ H) end. }
  destruct Hnext as (tr1 & -> & Hadd).
  clear - Wl1 Hadd. induction l as [|[t r] l IH]; [contradiction Wl1; auto|]. simpl.
  destruct l as [|x l].
  - simpl. apply Hadd.
  - rewrite IH by discriminate. apply add_update_last.
Qed.

(** ** Merging and compacting tries *)
Definition adv_upds since (l : list (T * R)) : list (T * R) := map (fun x => (advance_by (fst x) since, snd x)) l.
Definition cval since : V * list (T * R) -> list (V * list (T * R)) := keepmap (fun l => consolidate (adv_upds since l)).
Definition ckey since : K * list (V * list (T * R)) -> trie K V T R := keepmap (flat_map (cval since)).
Definition compact_trie since tr : trie K V T R := flat_map (ckey since) tr.
Definition mvals := mergew (A:=V) (@app (T * R)).
Definition mtries := mergew (A:=K) mvals.

Definition adv_update since (u : K * V * T * R) : K * V * T * R := (fst (fst u), advance_by (snd (fst u)) since, snd u).

Lemma compact_trie_weight since tr : same_weights (A:=K*V*T) (flat (compact_trie since tr)) (map (adv_update since) (flat tr)).
Proof.
  unfold compact_trie, flat, ckey.
  rewrite (keepmap_flat (flat_map (cval since)) (fun kv => flat_map (fun vu => map (fun u => (fst kv, fst vu, fst u, snd u)) (snd vu)) (snd kv)))
    by reflexivity.
  rewrite flat_map_concat_map with (l := tr) (f := fun kv : K * list (V * list (T * R)) => flat_map (fun vu : V * list (T * R) =>
    map (fun tr0 : T * R => (fst kv, fst vu, fst tr0, snd tr0)) (snd vu)) (snd kv)).
  rewrite concat_map, map_map, <- flat_map_concat_map.
  apply same_weights_flat_map. intros [k vs] _. simpl. unfold cval.
  rewrite (keepmap_flat (fun l => consolidate (adv_upds since l)) (fun vu => map (fun u => (k, fst vu, fst u, snd u)) (snd vu))) by reflexivity.
  rewrite flat_map_concat_map with (l := vs) (f := fun vu : V * list (T * R) => map (fun tr0 : T * R => (k, fst vu, fst tr0, snd tr0)) (snd vu)).
  rewrite concat_map, map_map, <- flat_map_concat_map.
  apply same_weights_flat_map. intros [v l] _. simpl.
  assert (E : map (adv_update since) (map (fun tr0 : T * R => (k, v, fst tr0, snd tr0)) l) =
              map (fun x => (k, v, fst x, snd x)) (adv_upds since l)) 
    by (unfold adv_upds; rewrite !map_map; reflexivity).
  rewrite E. apply (map_same_weights (fun t => (k, v, t)) _ _ (consolidate_weight (adv_upds since l))).
Qed.

Definition sorted_trie tr : Prop := strictly_sorted (map fst tr) /\ Forall (fun x => strictly_sorted (map fst (snd x))) tr.

Lemma wf_sorted tr : wf_trie tr -> sorted_trie tr.
Proof. intros [H1 H2]; split; auto. eapply Forall_impl; [|exact H2]. intros x (_ & H & _); exact H. Qed.

Lemma compact_trie_wf since tr : sorted_trie tr -> wf_trie (compact_trie since tr).
Proof.
  intros [H1 H2]. split.
  - apply keepmap_sorted; auto.
  - apply (keepmap_Forall (flat_map (cval since)) (fun x => wf_vals (snd x))). eapply Forall_impl; [|exact H2].
    intros [k vs] Hs Hne. simpl in *. repeat split; auto.
    + apply keepmap_sorted; auto.
    + apply (keepmap_Forall (fun l => consolidate (adv_upds since l))). apply Forall_forall. intros [v l] _ Hn; simpl in *. split; auto.
      apply consolidate_consolidated.
Qed.

Lemma mtries_sorted tr1 tr2 : sorted_trie tr1 -> sorted_trie tr2 -> sorted_trie (mtries tr1 tr2).
Proof.
  intros [H1 H2] [H3 H4]. split.
  - apply mergew_sorted; auto.
  - apply (mergew_Forall mvals (fun vs => strictly_sorted (map fst vs))); auto. intros; apply mergew_sorted; auto.
Qed.

Lemma mtries_perm tr1 tr2 : Permutation (flat (mtries tr1 tr2)) (flat tr1 ++ flat tr2).
Proof.
  unfold flat, mtries. apply mergew_flat_perm. intros k vs1 vs2. simpl. unfold mvals.
  apply (mergew_flat_perm (@app (T * R)) (fun vu => map (fun tr0 : T * R => (k, fst vu, fst tr0, snd tr0)) (snd vu))).
  intros v l1 l2. simpl. rewrite map_app. reflexivity.
Qed.

(** The heart of batch merging: what the merged trie holds. *)
Lemma merged_flat since tr1 tr2 : sorted_trie tr1 -> sorted_trie tr2 ->
  flat (compact_trie since (mtries tr1 tr2)) = consolidate (A:=K*V*T) (map (adv_update since) (flat tr1 ++ flat tr2)).
Proof.
  intros H1 H2. apply (consolidated_unique (A:=K*V*T)).
  - apply wf_trie_consolidated, compact_trie_wf, mtries_sorted; auto.
  - apply consolidate_consolidated.
  - eapply same_weights_trans; [apply compact_trie_weight|].
    eapply same_weights_trans; [|apply same_weights_sym, consolidate_weight].
    apply weight_perm, Permutation_map, mtries_perm.
Qed.
End Trie.
