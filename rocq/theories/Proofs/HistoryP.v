(** Proofs about edit lists and replay (Model/HistoryM.v). *)
From Coq Require Import Sorting.Sorted.
From Verif Require Export Base.Collections Model.HistoryM Proofs.ConsolidationP.

Section SortP.
Context {A : Type} {OA : Ord A}.
Lemma oinsert_perm (x : A) l : Permutation (oinsert x l) (x :: l).
Proof.
  induction l as [|y l IH]; simpl; auto. destruct (leb x y); auto.
  eapply perm_trans; [apply perm_skip, IH|apply perm_swap].
Qed.
Lemma osort_perm (l : list A) : Permutation (osort l) l.
Proof. induction l as [|x l IH]; simpl; auto. eapply perm_trans; [apply oinsert_perm|apply perm_skip, IH]. Qed.
Lemma oinsert_sorted (x : A) l : StronglySorted le l -> StronglySorted le (oinsert x l).
Proof.
  induction 1 as [|y l Hs IH HF]; simpl.
  - constructor; constructor.
  - destruct (leb x y) eqn:E.
    + apply leb_le in E. constructor; [constructor; auto|]. constructor; auto.
      eapply Forall_impl; [|exact HF]. intros z Hz; eapply le_trans; eauto.
    + apply leb_gt in E. constructor; auto. apply (Permutation_Forall (Permutation_sym (oinsert_perm x l))).
      constructor; auto. apply lt_le; auto.
Qed.
Lemma osort_sorted (l : list A) : StronglySorted le (osort l).
Proof. induction l; simpl; [constructor|apply oinsert_sorted; auto]. Qed.

Lemma dedup_go_in x l (y : A) : In y (dedup_go x l) <-> In y (x :: l).
Proof.
  revert x; induction l as [|z l IH]; intros x; simpl; [tauto|]. destruct (eqb_spec x z) as [->|N].
  - rewrite IH; simpl; tauto.
  - simpl. rewrite IH. simpl. tauto.
Qed.
Lemma dedup_in l (y : A) : In y (dedup l) <-> In y l.
Proof. destruct l; [simpl; tauto|apply dedup_go_in]. Qed.
Lemma dedup_go_sorted x (l : list A) : StronglySorted le (x :: l) -> strictly_sorted (dedup_go x l).
Proof.
  revert x; induction l as [|z l IH]; intros x H; simpl.
  - constructor.
  - inversion H as [|? ? Hs HF]; subst. destruct (eqb_spec x z) as [->|N].
    + apply IH. auto.
    + apply strictly_sorted_cons; [apply IH; auto|]. apply Forall_forall. intros y Hy. apply dedup_go_in in Hy.
      inversion HF as [|? ? Hxz HF']; subst. apply le_lteq in Hxz. destruct Hxz as [Hlt|E]; [|contradiction].
      inversion Hs as [|? ? Hs' HF'']; subst. destruct Hy as [<-|Hy]; auto.
      eapply lt_le_trans; [exact Hlt|]. rewrite Forall_forall in HF''. auto.
Qed.
Lemma dedup_osort_in l (y : A) : In y (dedup (osort l)) <-> In y l.
Proof. rewrite dedup_in. split; apply Permutation_in; [|symmetry]; apply osort_perm. Qed.
Lemma dedup_osort_sorted (l : list A) : strictly_sorted (dedup (osort l)).
Proof. pose proof (osort_sorted l) as H. destruct (osort l); simpl; [constructor|apply dedup_go_sorted; auto]. Qed.
End SortP.

Lemma mapM_Forall2 {A B} (f : A -> option B) l ys : mapM f l = Some ys <-> Forall2 (fun x y => f x = Some y) l ys.
Proof.
  split.
  - revert ys; induction l as [|x l IH]; simpl; intros ys H.
    + inversion H; constructor.
    + destruct (f x) eqn:E; [|discriminate]. destruct (mapM f l) eqn:E2; [|discriminate]. inversion H; constructor; auto.
  - induction 1 as [|x y l ys H HF IH]; simpl; auto. rewrite H, IH; auto.
Qed.

Section HistoryP.
Context {V T R : Type} {OV : Ord V} {TT : Time T} {DR : Diff R}.
Notation update := (V * T * R)%type.
Notation time_of := (fun u : update => snd (fst u)).

(** ** Edit lists *)
Fixpoint ends (n : nat) (gs : list (V * list (T * R))) : list (V * nat) :=
  match gs with [] => [] | (v, l) :: gs => (v, n + length l) :: ends (n + length l) gs end.
Definition ungroup (gs : list (V * list (T * R))) : list update :=
  flat_map (fun g => map (fun td => (fst g, fst td, snd td)) (snd g)) gs.
Record el_rel (el : EditList V T R) (gs : list (V * list (T * R))) (pend : list (T * R)) : Prop := {
  er_values : el_values el = ends 0 gs;
  er_edits : el_edits el = concat (map snd gs) ++ pend
}.

Lemma ends_app n gs1 gs2 : ends n (gs1 ++ gs2) = ends n gs1 ++ ends (n + length (concat (map snd gs1))) gs2.
Proof.
  revert n; induction gs1 as [|[v l] gs1 IH]; intros n; simpl; [rewrite Nat.add_0_r; auto|].
  rewrite IH, app_length. f_equal. f_equal. f_equal. lia.
Qed.
Lemma last_ends n gs : last (map snd (ends n gs)) n = n + length (concat (map snd gs)).
Proof.
  revert n; induction gs as [|[v l] gs IH]; intros n; simpl; [lia|]. rewrite app_length.
  destruct gs as [|g gs]; [simpl; lia|]. specialize (IH (n + length l)).
  transitivity (last (map snd (ends (n + length l) (g :: gs))) (n + length l)); [|rewrite IH; lia].
  destruct g as [v' l']. clear. simpl. generalize (ends (n + length l + length l') gs). intros e.
  destruct (map snd e) eqn:E; auto. clear E. revert n0. induction l0; intros; auto. simpl in *. destruct l0; auto.
Qed.
Lemma ends_length n gs : length (ends n gs) = length gs.
Proof. revert n; induction gs as [|[v l] gs IH]; intros n; simpl; auto. Qed.

Lemma el_new_rel : el_rel el_new [] [].
Proof. split; reflexivity. Qed.
Lemma el_push_rel el gs pend t d : el_rel el gs pend -> el_rel (el_push el t d) gs (pend ++ [(t, d)]).
Proof. intros [E1 E2]. split; simpl; auto. rewrite E2, app_assoc; auto. Qed.
Lemma el_push_all_rel meet l : forall el gs pend, el_rel el gs pend ->
  el_rel (el_push_all meet el l) gs (pend ++ map (fun td => (advance_opt meet (fst td), snd td)) l).
Proof.
  unfold el_push_all. induction l as [|td l IH]; intros el gs pend H; simpl; [rewrite app_nil_r; auto|].
  replace (pend ++ _ :: _) with ((pend ++ [(advance_opt meet (fst td), snd td)]) ++ map (fun td => (advance_opt meet (fst td), snd td)) l)
    by (rewrite <- app_assoc; reflexivity).
  apply IH, el_push_rel; auto.
Qed.
Definition sealed (gs : list (V * list (T * R))) (v : V) (pend : list (T * R)) :=
  match consolidate pend with [] => gs | l => gs ++ [(v, l)] end.
Lemma skipn_exact {A} (l1 l2 : list A) n : n = length l1 -> skipn n (l1 ++ l2) = l2.
Proof. intros ->. rewrite skipn_app, skipn_all, Nat.sub_diag; auto. Qed.
Lemma el_seal_rel el gs pend v : el_rel el gs pend -> exists el', el_seal el v = Some el' /\ el_rel el' (sealed gs v pend) [].
Proof.
  intros [E1 E2]. unfold el_seal. rewrite E1, E2, (last_ends 0 gs).
  rewrite (proj2 (Nat.leb_le _ _)) by (rewrite app_length; lia). eexists; split; [reflexivity|].
  cbn [plus]. unfold consolidate_from. rewrite firstn_app_exact, skipn_exact by auto. unfold sealed.
  destruct (consolidate pend) as [|x l] eqn:Ec.
  - rewrite app_nil_r, Nat.ltb_irrefl. split; simpl; auto. rewrite app_nil_r; auto.
  - rewrite (proj2 (Nat.ltb_lt _ _)) by (rewrite app_length; simpl; lia). split; simpl.
    + rewrite ends_app. simpl. rewrite app_length. simpl. auto.
    + rewrite map_app, concat_app. simpl. rewrite !app_nil_r. auto.
Qed.

Lemma ungroup_app gs1 gs2 : ungroup (gs1 ++ gs2) = ungroup gs1 ++ ungroup gs2.
Proof. unfold ungroup. apply flat_map_app. Qed.

(** what sealing a value's edits adds *)
Lemma sealed_weights gs v pend : same_weights (A:=V*T) (ungroup (sealed gs v pend)) (ungroup gs ++ map (fun td => (v, fst td, snd td)) pend).
Proof.
  assert (H : same_weights (A:=V*T) (map (fun td => (v, fst td, snd td)) (consolidate pend)) (map (fun td => (v, fst td, snd td)) pend)).
  { apply (map_same_weights (B:=V*T) (fun t => (v, t)) (consolidate pend) pend). apply consolidate_weight. }
  unfold sealed. destruct (consolidate pend) as [|x l] eqn:E.
  - rewrite <- (app_nil_r (ungroup gs)) at 1. apply same_weights_app; [apply same_weights_refl|exact H].
  - rewrite ungroup_app. apply same_weights_app; [apply same_weights_refl|]. unfold ungroup. cbn [flat_map fst snd]. rewrite app_nil_r. exact H.
Qed.
Definition groups_ok (gs : list (V * list (T * R))) := Forall (fun g => snd g <> [] /\ consolidated (snd g)) gs.
Lemma sealed_ok gs v pend : groups_ok gs -> groups_ok (sealed gs v pend).
Proof.
  unfold sealed, groups_ok. intros H. pose proof (consolidate_consolidated pend) as HC. destruct (consolidate pend); auto.
  apply Forall_app; split; auto. constructor; [|constructor]. simpl; split; [discriminate|auto].
Qed.

Lemma el_bounds_rel el gs1 g gs2 pend : el_rel el (gs1 ++ g :: gs2) pend ->
  el_bounds el (length gs1) = Some (length (concat (map snd gs1)), length (concat (map snd gs1)) + length (snd g)) /\
  exists n, get (el_values el) (length gs1) = Some (fst g, n).
Proof.
  intros [E1 E2]. unfold el_bounds. rewrite E1, ends_app. simpl. destruct g as [v l]. simpl.
  assert (G : get (ends 0 gs1 ++ (v, length (concat (map snd gs1)) + length l) :: ends (length (concat (map snd gs1)) + length l) gs2) (length gs1)
             = Some (v, length (concat (map snd gs1)) + length l)).
  { unfold get. rewrite nth_error_app2; rewrite ends_length; auto. rewrite Nat.sub_diag; auto. }
  rewrite G. split; [|eauto]. destruct gs1 as [|g1 gs1'] eqn:Eg; [reflexivity|]. rewrite <- Eg in *.
  destruct (length gs1 =? 0) eqn:El; [apply Nat.eqb_eq in El; rewrite Eg in El; discriminate|].
  unfold get. rewrite nth_error_app1 by (rewrite ends_length; rewrite Eg; simpl; lia).
  assert (Hx : gs1 <> []) by (rewrite Eg; discriminate). destruct (exists_last Hx) as (i & [v' l'] & Ei).
  rewrite Ei, ends_app, app_length. simpl. rewrite nth_error_app2 by (rewrite ends_length; lia).
  rewrite ends_length. replace (length i + 1 - 1 - length i) with 0 by lia. simpl.
  rewrite map_app, concat_app, app_length. simpl. rewrite app_nil_r. auto.
Qed.

Lemma get_mid_app {A} (l1 l2 : list A) i : get (l1 ++ l2) (length l1 + i) = get l2 i.
Proof. unfold get. rewrite nth_error_app2 by lia. f_equal. lia. Qed.

Lemma mapM_range {A B} (f : nat -> option B) (g : A -> B) (l : list A) : forall lo,
  (forall i x, get l i = Some x -> f (lo + i) = Some (g x)) -> mapM f (range lo (lo + length l)) = Some (map g l).
Proof.
  unfold range. intros lo. replace (lo + length l - lo) with (length l) by lia. revert lo.
  induction l as [|x l IH]; intros lo H; simpl; auto.
  pose proof (H 0 x eq_refl) as H0. rewrite Nat.add_0_r in H0. rewrite H0. rewrite IH; auto.
  intros i y Hi. replace (S lo + i) with (lo + S i) by lia. apply H; auto.
Qed.

Lemma el_map_rel el gs : el_rel el gs [] -> el_map el = Some (ungroup gs).
Proof.
  intros H. unfold el_map. rewrite (er_values _ _ _ H), ends_length.
  assert (G : forall gs2 gs1, gs = gs1 ++ gs2 -> mapM (fun index =>
          ' (lower, upper) <- el_bounds el index;
          x <- get (el_values el) index;
          mapM (fun e => td <- get (el_edits el) e; Some (fst x, fst td, snd td)) (range lower upper)) (seq (length gs1) (length gs2))
      = Some (map (fun g => map (fun td => (fst g, fst td, snd td)) (snd g)) gs2)).
  { induction gs2 as [|g gs2 IH]; intros gs1 E; [reflexivity|]. cbn [length seq mapM map].
    pose proof H as H'. rewrite E in H'. destruct (el_bounds_rel _ _ _ _ _ H') as (B1 & n & B2). rewrite B1, B2.
    rewrite (mapM_range _ (fun td => (fst g, fst td, snd td)) (snd g)).
    - specialize (IH (gs1 ++ [g])). rewrite app_length in IH. cbn [length] in IH. rewrite Nat.add_1_r in IH. rewrite IH; auto.
      rewrite <- app_assoc; auto.
    - intros i x Hx. rewrite (er_edits _ _ _ H'), app_nil_r, map_app, concat_app, get_mid_app. simpl.
      unfold get in *. rewrite nth_error_app1 by (apply nth_error_Some; congruence). rewrite Hx. auto. }
  pose proof (G gs [] eq_refl) as G0. cbn [length] in G0. rewrite <- (er_values _ _ _ H). rewrite G0.
  rewrite <- flat_map_concat_map. reflexivity.
Qed.

(** ** The history built *)
Notation entry := (T * T * nat * nat)%type.
Definition e_time (x : entry) : T := fst (fst (fst x)).
Definition e_meet (x : entry) : T := snd (fst (fst x)).
Definition resolves (el : EditList V T R) (x : entry) (u : update) : Prop :=
  vh_resolve {| vh_edits := el; vh_history := []; vh_buffer := [] |} x = Some u.

Fixpoint meets_ok (l : list entry) : Prop :=
  match l with
  | [] => True
  | x :: l' => (forall m, tle m (e_meet x) = true <-> Forall (fun y => tle m (e_time y) = true) l) /\ meets_ok l'
  end.

(** [h] is replaying: [rest] is to come, in this order *)
Record replays (h : ValueHistory V T R) (rest : list update) : Prop := {
  rp_resolves : Forall2 (resolves (vh_edits h)) (vh_history h) rest;
  rp_meets : meets_ok (vh_history h);
  rp_sorted : StronglySorted (fun u1 u2 => le (snd (fst u1)) (snd (fst u2))) rest
}.

Lemma resolves_time el x u : resolves el x u -> e_time x = snd (fst u).
Proof.
  unfold resolves, vh_resolve. destruct x as [[[t m] vi] ei]. cbn [vh_edits].
  destruct (get (el_values el) vi); [|discriminate]. destruct (get (el_edits el) ei); [|discriminate].
  intros H; inversion H; reflexivity.
Qed.

Lemma suffix_meets_ok l : Forall (fun x => e_meet x = e_time x) l -> meets_ok (suffix_meets l) /\
  map (fun x => (e_time x, snd (fst x), snd x)) (suffix_meets l) = map (fun x => (e_time x, snd (fst x), snd x)) l.
Proof.
  induction 1 as [|x l Hx HF [IH1 IH2]]; [split; simpl; auto|]. destruct x as [[[t m] vi] ei].
  unfold e_meet, e_time in Hx. simpl in Hx. subst m. cbn [suffix_meets].
  destruct (suffix_meets l) as [|[[[t' m'] vi'] ei'] l'] eqn:E.
  - split; [split; simpl; auto|].
    + intros m. split; [intros H; constructor; auto; constructor|]. intros H; inversion H; auto.
    + cbn [map]. f_equal. exact IH2.
  - split; [split|].
    + intros m. cbn [e_meet e_time fst snd]. rewrite tle_meet. destruct IH1 as [IHm _]. specialize (IHm m). cbn [e_meet e_time fst snd] in IHm.
      unfold e_meet, e_time in *. simpl in IHm. rewrite IHm. split.
      * intros [H1 H2]. constructor; auto.
      * intros H; inversion H; subst; auto.
    + exact IH1.
    + cbn [map]. f_equal. exact IH2.
Qed.

Lemma resolves_ext el x y : (e_time x, snd (fst x), snd x) = (e_time y, snd (fst y), snd y) ->
  forall u, resolves el x u -> resolves el y u.
Proof.
  destruct x as [[[t m] vi] ei], y as [[[t' m'] vi'] ei']. unfold e_time. simpl. intros H; inversion H; subst. auto.
Qed.
Lemma Forall2_map_ext {A B C} (P : A -> C -> Prop) (f : A -> B) (HP : forall x y u, f x = f y -> P x u -> P y u) :
  forall l1 l2 us, map f l1 = map f l2 -> Forall2 P l1 us -> Forall2 P l2 us.
Proof.
  induction l1 as [|x l1 IH]; intros [|y l2] us E H; try discriminate; auto.
  inversion H; subst. inversion E. constructor; eauto.
Qed.

Lemma vh_build_ok el us : el_map el = Some us ->
  exists h us', vh_build el = Some h /\ vh_buffer h = [] /\ vh_edits h = el /\ Permutation us' us /\ replays h us'.
Proof.
  unfold el_map. destruct (mapM _ _) as [uss|] eqn:E; [|discriminate]. intros H; inversion H; subst us; clear H.
  apply mapM_Forall2 in E. unfold vh_build.
  assert (G : exists ess, mapM (fun value_index =>
          ' (lower, upper) <- el_bounds el value_index;
          mapM (fun edit_index => td <- get (el_edits el) edit_index; Some (fst td, fst td, value_index, edit_index))
            (range lower upper)) (seq 0 (length (el_values el))) = Some ess /\
      Forall2 (resolves el) (concat ess) (concat uss) /\ Forall (fun x => e_meet x = e_time x) (concat ess)).
  { induction E as [|i us il uss Hi HF IH].
    - exists []. repeat split; constructor.
    - destruct IH as (ess & E1 & E2 & E3). cbn [mapM]. destruct (el_bounds el i) as [[lo up]|]; [|discriminate].
      destruct (get (el_values el) i) as [x|] eqn:Ex; [|discriminate]. apply mapM_Forall2 in Hi.
      assert (G : exists es, mapM (fun edit_index => td <- get (el_edits el) edit_index; Some (fst td, fst td, i, edit_index)) (range lo up) = Some es /\
                 Forall2 (resolves el) es us /\ Forall (fun x => e_meet x = e_time x) es).
      { clear - Hi Ex. induction Hi as [|e u el' us He HF IH]; [exists []; repeat split; constructor|].
        destruct IH as (es & E1 & E2 & E3). cbn [mapM]. destruct (get (el_edits el) e) as [td|] eqn:Etd; [|discriminate].
        rewrite E1. eexists; split; [reflexivity|]. split; constructor; auto. unfold resolves, vh_resolve. simpl.
        rewrite Ex, Etd. exact He. }
      destruct G as (es & F1 & F2 & F3). rewrite F1, E1. eexists; split; [reflexivity|]. simpl. split.
      + apply Forall2_app; auto.
      + apply Forall_app; auto. }
  destruct G as (ess & E1 & E2 & E3). rewrite E1.
  destruct (Permutation_Forall2 (Permutation_sym (osort_perm (concat ess))) E2) as (us' & P1 & P2).
  destruct (suffix_meets_ok (osort (concat ess))) as [M1 M2].
  { eapply Permutation_Forall; [symmetry; apply osort_perm|exact E3]. }
  eexists; exists us'; split; [reflexivity|]. cbn [vh_buffer vh_edits]. split; auto. split; auto. split; [symmetry; auto|].
  constructor; cbn [vh_edits vh_history]; auto.
  - eapply Forall2_map_ext; [|symmetry; exact M2|exact P2]. intros x y u Exy. apply resolves_ext. exact Exy.
  - pose proof (osort_sorted (concat ess)) as Hs. clear - P2 Hs. induction P2 as [|x u xs us Hx HF IH]; [constructor|].
    inversion Hs as [|? ? Hs' HF']; subst. constructor; auto. apply resolves_time in Hx.
    clear - Hx HF HF'. induction HF as [|y w ys ws Hy HF IH]; constructor; inversion HF'; subst; auto.
    apply resolves_time in Hy. rewrite <- Hx, <- Hy. destruct x as [[[t m] vi] ei], y as [[[t' m'] vi'] ei'].
    unfold e_time. simpl. match goal with H : le _ _ |- _ => revert H end. clear. unfold le. cbn. unfold pair_cmp. cbn. unfold pair_cmp; cbn.
    unfold pair_cmp. cbn. destruct (cmp t t'); congruence.
Qed.

(** ** Steps *)
Lemma replays_time h rest : replays h rest -> vh_time h = option_map (fun u => snd (fst u)) (hd_error rest).
Proof.
  intros [H _ _]. unfold vh_time. destruct H as [|x u xs us Hx HF]; simpl; auto. f_equal. exact (resolves_time _ _ _ Hx).
Qed.
Lemma replays_edit h rest : replays h rest -> vh_edit h = Some (hd_error rest).
Proof. intros [H _ _]. unfold vh_edit. destruct H as [|x u xs us Hx HF]; simpl; auto. unfold resolves, vh_resolve in *. destruct x as [[[t m] vi] ei]. simpl in *. rewrite Hx. auto. Qed.
Lemma replays_meet h rest : replays h rest ->
  match vh_meet h with
  | Some m => rest <> [] /\ forall m', tle m' m = true <-> Forall (fun u : update => tle m' (snd (fst u)) = true) rest
  | None => rest = []
  end.
Proof.
  intros [H M _]. unfold vh_meet. destruct H as [|x u xs us Hx HF]; simpl; auto. split; [discriminate|].
  destruct M as [M _]. intros m'. specialize (M m'). unfold e_meet in M. rewrite M.
  assert (HF' : Forall2 (resolves (vh_edits h)) (x :: xs) (u :: us)) by (constructor; auto). clear - HF'.
  induction HF' as [|y w ys ws Hy HF IH]; [split; constructor|]. rewrite !Forall_cons_iff, IH.
  rewrite (resolves_time _ _ _ Hy). reflexivity.
Qed.
Lemma replays_done h rest : replays h rest -> vh_is_done h = is_nil rest.
Proof. intros [H _ _]. unfold vh_is_done. destruct H; reflexivity. Qed.
Lemma replays_step h u rest : replays h (u :: rest) ->
  exists h', vh_step h = Some h' /\ vh_buffer h' = vh_buffer h ++ [u] /\ vh_edits h' = vh_edits h /\ replays h' rest.
Proof.
  intros [H M S]. unfold vh_step. inversion H as [|x u' xs us Hx HF]; subst.
  assert (E : vh_resolve h x = Some u). { unfold resolves, vh_resolve in *. destruct x as [[[t m] vi] ei]. exact Hx. }
  rewrite E. eexists; split; [reflexivity|]. cbn [vh_buffer vh_edits]. split; auto. split; auto.
  constructor; cbn [vh_edits vh_history]; auto.
  - match goal with H : _ :: _ = _ |- _ => rewrite <- H in M | H : _ = _ :: _ |- _ => rewrite H in M | _ => idtac end. apply M.
  - inversion S; auto.
Qed.
Lemma replays_advance h rest m : replays h rest -> replays (vh_advance_buffer_by h m) rest.
Proof. intros [H M S]. constructor; auto. Qed.

(** stepping while a condition holds: exactly the longest prefix satisfying it *)
Lemma replays_step_while p : forall n h rest, replays h rest -> length rest <= n ->
  exists k h', vh_step_while n p h = Some (0 <? k, h') /\ k = prefix_len (fun u => p (snd (fst u))) rest /\
    vh_buffer h' = vh_buffer h ++ firstn k rest /\ vh_edits h' = vh_edits h /\ replays h' (skipn k rest).
Proof.
  induction n as [|n IH]; intros h rest H Hn.
  - destruct rest; [|simpl in Hn; lia]. exists 0, h. cbn [vh_step_while]. rewrite (replays_time _ _ H). simpl. rewrite app_nil_r. auto.
  - cbn [vh_step_while]. rewrite (replays_time _ _ H). destruct rest as [|u rest]; [exists 0, h; simpl; rewrite app_nil_r; auto|].
    simpl. destruct (p (snd (fst u))) eqn:Ep.
    + destruct (replays_step _ _ _ H) as (h1 & E1 & B1 & D1 & R1). rewrite E1.
      destruct (IH h1 rest R1 ltac:(simpl in Hn; lia)) as (k & h2 & E2 & K2 & B2 & D2 & R2). rewrite E2.
      exists (S k), h2. split; auto. split; [congruence|]. split; [rewrite B2, B1, <- app_assoc; auto|]. split; [congruence|]. auto.
    + exists 0, h. simpl. rewrite app_nil_r. auto.
Qed.
End HistoryP.
