(** Cloned scopes: the copy of a list of items means what the items mean. *)
From Verif Require Export Proofs.CloneP.
From Verif Require Import Base.Collections Base.Arrays Base.Order Spec.PointStampSpec.
Local Open Scope nat_scope.

Definition sref (b vb : nat) (im : list Ref) (r : Ref) : option Ref :=
  match r with
  | RLocal i => Some (RLocal (b + i))
  | RImport k => nth_error im k
  | RVar v => Some (RVar (vb + v))
  | RChildExport i j => Some (RChildExport (b + i) j)
  end.
Definition lifted (depth : nat) (c : Scope) (ims : list coll) (a : list nat * Site) (h : coll) : Prop :=
  exists g, site_means depth c ims (fst a) (snd a) g /\ same_coll h (linear_of [LLiftIter] depth g).
Definition hosts (c c' : Scope) : Prop := forall depth ims X, length ims = length (sc_imports c) ->
  scope_means depth c' ims X <-> exists exs hs, X = exs ++ hs /\ scope_means depth c ims exs /\ Forall2 (lifted depth c ims) (sites c) hs.
Definition known (ni : nat) (d : list Item) (r : Ref) : Prop :=
  match r with
  | RLocal i => exists n, nth_error d i = Some (IOp n)
  | RImport i => i < ni
  | RVar i => True
  | RChildExport i j => exists c, nth_error d i = Some (ISub c) /\ j < length (sc_exports c)
  end.
Definition host_refs (i : nat) (c : Scope) : list Ref := map (fun k => RChildExport i (length (sc_exports c) + k)) (seq 0 (length (sites c))).
Inductive copy (b vb : nat) (im : list Ref) : list Item -> list Item -> list Ref -> Prop :=
| CopyNil : copy b vb im [] [] []
| CopyOp d n rs nd nd' r : copy b vb im d n rs -> (forall x, In x (node_refs nd) -> known (length im) d x) -> node_each (sref b vb im) nd = Some nd' ->
    match nd with NArrange x => sref b vb im x = Some r | _ => r = RLocal (b + length d) end -> copy b vb im (d ++ [IOp nd]) (n ++ [IOp nd']) (rs ++ [r])
| CopySub d n rs c c' : copy b vb im d n rs -> (forall x, In x (import_refs (sc_imports c)) -> known (length im) d x) ->
    Forall (fun im => exists r, im_from im = SParent r) (sc_imports c) -> everywhere refs_ok c -> everywhere nested_imports c ->
    mapO (import_each (sref b vb im)) (sc_imports c) = Some (sc_imports c') -> hosts c c' ->
    length (sc_exports c') = length (sc_exports c) + length (sites c) -> everywhere refs_ok c' ->
    copy b vb im (d ++ [ISub c]) (n ++ [ISub c']) (rs ++ host_refs (b + length d) c).
Lemma copy_length b vb im d n rs : copy b vb im d n rs -> length n = length d.
Proof. induction 1; auto; rewrite !app_length; simpl; lia. Qed.

Section Values.
Variables (depth : nat) (imports vars1 vars : list coll) (vals1 : list rvalue) (im : list Ref) (ims : list coll) (its : list Item).
Local Notation b := (length vals1).
Local Notation vb := (length vars1).
Local Notation vars' := (vars1 ++ vars).
Hypothesis (Him : mapO (resolve vals1 imports vars') im = Some ims) (V1 : vals_ok depth imports vars' its vals1).

Definition seen (c : Scope) (ims' : list coll) (a : list nat * Site) (h : coll) : Prop :=
  exists g l, site_means (S depth) c ims' (fst a) (snd a) g /\ at_times (left_time (S depth)) (linear_of [LLiftIter] (S depth) g) = Some l /\ same_coll h l.
Definition val_rel (v : list rvalue) (it : Item) (x x' : rvalue) : Prop :=
  match it, x, x' with
  | IOp _, VOp c, VOp c' => c = c'
  | ISub c, VSub o, VSub o' => exists h ims', o' = o ++ h /\ length o = length (sc_exports c) /\
      mapO (resolve v ims vars) (import_refs (sc_imports c)) = Some ims' /\ Forall2 (seen c ims') (sites c) h
  | _, _, _ => False
  end.
Inductive vrel : list Item -> list rvalue -> list rvalue -> Prop :=
| VrNil : vrel [] [] []
| VrSnoc d v w it x x' : vrel d v w -> val_rel v it x x' -> vrel (d ++ [it]) (v ++ [x]) (w ++ [x']).
Lemma vrel_nth d v w : vrel d v w -> length v = length d /\ length w = length d /\ forall i it, nth_error d i = Some it ->
  exists x x', nth_error v i = Some x /\ nth_error w i = Some x' /\
    match it, x, x' with IOp _, VOp c, VOp c' => c = c' | ISub c, VSub o, VSub o' => exists h, o' = o ++ h /\ length o = length (sc_exports c) | _, _, _ => False end.
Proof.
  induction 1 as [|d v w it x x' _ (L1 & L2 & N) H]; [split; auto; split; auto; intros [|i] it; discriminate|].
  rewrite !app_length; simpl. split; [lia|]. split; [lia|]. intros i it' E. destruct (lt_dec i (length d)) as [Hi|Hi].
  - rewrite nth_error_app1 in E by auto. destruct (N i it' E) as (y & y' & A & B & C). exists y, y'. rewrite !nth_error_app1 by lia. auto.
  - rewrite nth_error_app2 in E by lia. destruct (i - length d) as [|k] eqn:Ek; [|destruct k; discriminate]. injection E as <-.
    exists x, x'. rewrite !nth_error_app2 by lia. replace (i - length v) with 0 by lia. replace (i - length w) with 0 by lia. split; auto. split; auto.
    destruct it, x, x'; simpl in H; auto. destruct H as (h & i' & A & B & _). eauto.
Qed.
Lemma look_same d v w r : vrel d v w -> known (length im) d r -> exists r', sref b vb im r = Some r' /\ resolve (vals1 ++ w) imports vars' r' = resolve v ims vars r.
Proof.
  intros R. apply vrel_nth in R as (L1 & L2 & N). destruct r as [i|i|i|i j]; simpl; intros H.
  - destruct H as (n & E). destruct (N _ _ E) as (x & x' & A & B & C). eexists. split; [reflexivity|]. simpl. rewrite nth_error_app2, A by lia.
    replace (b + i - b) with i by lia. rewrite B. destruct x, x'; try contradiction. congruence.
  - destruct (nth_error im i) as [r'|] eqn:E; [|apply nth_error_None in E; lia]. exists r'. split; auto.
    destruct (mapO_get _ _ _ _ _ Him E) as (A & B). rewrite A. destruct (resolve vals1 imports vars' r') as [c|] eqn:Ec; [|congruence]. apply resolve_ext; auto.
  - eexists. split; [reflexivity|]. simpl. rewrite nth_error_app2 by lia. f_equal. lia.
  - destruct H as (c & E & Hj). destruct (N _ _ E) as (x & x' & A & B & C). eexists. split; [reflexivity|]. simpl. rewrite nth_error_app2, A by lia.
    replace (b + i - b) with i by lia. rewrite B. destruct x, x'; try contradiction. destruct C as (h & -> & L). rewrite nth_error_app1 by lia. auto.
Qed.
Lemma after_same d v w r : vrel d v w -> known (length im) d r -> after (resolve (vals1 ++ w) imports vars') (sref b vb im) r = resolve v ims vars r.
Proof. intros R K. destruct (look_same d v w r R K) as (r' & E & E'). unfold after. rewrite E. auto. Qed.
Lemma node_copy d v w nd nd' c : vrel d v w -> (forall x, In x (node_refs nd) -> known (length im) d x) -> node_each (sref b vb im) nd = Some nd' ->
  node_means depth (resolve (vals1 ++ w) imports vars') nd' c <-> node_means depth (resolve v ims vars) nd c.
Proof.
  intros R K E. rewrite (node_each_means _ _ _ _ _ _ E).
  split; (apply node_closed; [|apply same_coll_refl]; apply orel_looks; intros r Hr; rewrite (after_same d v w) by auto; apply orel_refl).
Qed.
Lemma imports_copy d v w c c' : vrel d v w -> (forall x, In x (import_refs (sc_imports c)) -> known (length im) d x) ->
  Forall (fun im => exists r, im_from im = SParent r) (sc_imports c) -> mapO (import_each (sref b vb im)) (sc_imports c) = Some (sc_imports c') ->
  imported (resolve (vals1 ++ w) imports vars') (sc_imports c') = mapO (resolve v ims vars) (import_refs (sc_imports c)).
Proof.
  intros R K F E. rewrite (imports_each _ _ _ _ E), imported_refs by auto. apply mapO_ext. intros r Hr. apply (after_same d v w); auto.
Qed.

Lemma seen_left c ims' : forall ss hs h, Forall2 (lifted (S depth) c ims') ss hs -> leaves depth hs h -> Forall2 (seen c ims') ss h.
Proof.
  intros ss hs h H. revert h. induction H as [|a x ss hs Hx _ IH]; intros h L; inversion L as [|? y ? h' Hy L']; subst; constructor.
  - destruct Hx as (g & Hg & Hs). destruct Hy as (l & El & Hl). destruct (same_left _ _ _ _ El Hs) as (l' & El' & Hl').
    exists g, l'. split; auto. split; auto. eapply same_coll_trans; eauto.
  - apply IH; auto.
Qed.

Theorem copy_back d n rs : copy b vb im d n rs -> forall w, vals_ok depth imports vars' (its ++ n) (vals1 ++ w) -> exists v, vals_ok depth ims vars d v /\ vrel d v w.
Proof.
  induction 1 as [|d n rs nd nd' r C IH K E _|d n rs c c' C IH K F R N E H]; intros w V.
  - destruct V as [L _]. destruct V1 as [L1 _]. rewrite !app_length in L. simpl in L. destruct w; [|simpl in L; lia]. exists []. split; [apply vals_ok_nil; auto|constructor].
  - rewrite app_assoc in V. apply vals_ok_snoc in V as (y & x & Ey & V & M).
    destruct (exists_last (l := w)) as (w0 & x0 & ->).
    { intros ->. destruct V as [L _]. destruct V1 as [L1 _]. apply (f_equal (@length _)) in Ey. rewrite !app_length in *. simpl in *. lia. }
    rewrite app_assoc in Ey. apply app_inj_tail in Ey as (<- & <-). destruct (IH w0 V) as (v & Vv & Rv). simpl in M. destruct x0 as [o|]; [|contradiction].
    exists (v ++ [VOp o]). split.
    + apply vals_ok_snoc. exists v, (VOp o). split; auto. split; auto. simpl. apply (node_copy d v w0 nd nd'); auto.
    + constructor; auto. simpl. auto.
  - rewrite app_assoc in V. apply vals_ok_snoc in V as (y & x & Ey & V & M).
    destruct (exists_last (l := w)) as (w0 & x0 & ->).
    { intros ->. destruct V as [L _]. destruct V1 as [L1 _]. apply (f_equal (@length _)) in Ey. rewrite !app_length in *. simpl in *. lia. }
    rewrite app_assoc in Ey. apply app_inj_tail in Ey as (<- & <-). destruct (IH w0 V) as (v & Vv & Rv). simpl in M. destruct x0 as [|o']; [contradiction|].
    destruct M as (i' & X & I & M & L). rewrite (imports_copy d v w0 c c') in I by auto.
    apply H in M as (exs & hs & -> & M & S). 2:{ apply mapO_length' in I. rewrite I. apply refs_length; auto. }
    apply Forall2_app_inv_l in L as (o & h & Lo & Lh & ->). exists (v ++ [VSub o]). split.
    + apply vals_ok_snoc. exists v, (VSub o). split; auto. split; auto. simpl. exists i', exs. split; auto. rewrite imported_refs; auto.
    + constructor; auto. simpl. exists h, i'. split; auto. split; [apply means_length in M; apply F2_length in Lo; congruence|]. split; auto. eapply seen_left; eauto.
Qed.
Theorem copy_forth d n rs : copy b vb im d n rs -> forall v, vals_ok depth ims vars d v -> exists w, vals_ok depth imports vars' (its ++ n) (vals1 ++ w) /\ vrel d v w.
Proof.
  induction 1 as [|d n rs nd nd' r C IH K E _|d n rs c c' C IH K F R N E H]; intros v V.
  - apply vals_ok_nil in V as ->. exists []. rewrite !app_nil_r. split; auto. constructor.
  - apply vals_ok_snoc in V as (v0 & x & -> & V & M). destruct (IH v0 V) as (w & Vw & Rw). simpl in M. destruct x as [o|]; [|contradiction].
    exists (w ++ [VOp o]). split.
    + rewrite !app_assoc. apply vals_ok_snoc. exists (vals1 ++ w), (VOp o). split; auto. split; auto. simpl. apply (node_copy d v0 w nd nd'); auto.
    + constructor; auto. simpl. auto.
  - apply vals_ok_snoc in V as (v0 & x & -> & V & M). destruct (IH v0 V) as (w & Vw & Rw). simpl in M. destruct x as [|o]; [contradiction|].
    destruct M as (i' & exs & I & M & L). rewrite imported_refs in I by auto.
    assert (Li : length i' = length (sc_imports c)). { apply mapO_length' in I. rewrite I. apply refs_length; auto. }
    destruct (forall2_there (fun a g => site_means (S depth) c i' (fst a) (snd a) g) (sites c)) as (gs & G); [intros a Ha; eapply sites_there; eauto|].
    assert (Hh : exists hs h, Forall2 (lifted (S depth) c i') (sites c) hs /\ leaves depth hs h).
    { clear -G. induction G as [|a g ss gs Hg _ (hs & h & A & B)]; [exists [], []; split; constructor|].
      destruct (at_times_total (left_time (S depth)) (linear_of [LLiftIter] (S depth) g)) as (l & El); [apply left_time_total|].
      exists (linear_of [LLiftIter] (S depth) g :: hs), (l :: h). split; constructor; auto.
      - exists g. split; auto. apply same_coll_refl.
      - exists l. split; auto. apply same_coll_refl. }
    destruct Hh as (hs & h & A & B). exists (w ++ [VSub (o ++ h)]). split.
    + rewrite !app_assoc. apply vals_ok_snoc. exists (vals1 ++ w), (VSub (o ++ h)). split; auto. split; auto. simpl. exists i', (exs ++ hs).
      split; [rewrite (imports_copy d v0 w c c'); auto|]. split; [apply H; eauto|]. apply Forall2_app; auto.
    + constructor; auto. simpl. exists h, i'. split; auto. split; [apply means_length in M; apply F2_length in L; congruence|]. split; auto. eapply seen_left; eauto.
Qed.

(** What is seen at the references. *)
Lemma vrel_snoc_inv d it v w : vrel (d ++ [it]) v w -> exists v0 w0 x x', v = v0 ++ [x] /\ w = w0 ++ [x'] /\ vrel d v0 w0 /\ val_rel v0 it x x'.
Proof.
  intros H. inversion H as [Q|d0 v0 w0 it0 x x' Hr Hx Q]; [destruct d; discriminate|]. apply app_inj_tail in Q as (-> & ->). eauto 10.
Qed.
Lemma mapO_app_some {A B} (f : A -> option B) l1 l2 r1 r2 : mapO f l1 = Some r1 -> mapO f l2 = Some r2 -> mapO f (l1 ++ l2) = Some (r1 ++ r2).
Proof.
  revert r1. induction l1 as [|x l1 IH]; intros r1 E1 E2; [injection E1 as <-; auto|].
  apply mapO_cons_inv in E1 as (y & r & -> & E & M). simpl. rewrite E, (IH r M E2). auto.
Qed.
Lemma mapO_resolve_ext v more i vs rs cs : mapO (resolve v i vs) rs = Some cs -> mapO (resolve (v ++ more) i vs) rs = Some cs.
Proof.
  revert cs. induction rs as [|r rs IH]; intros cs E; auto. apply mapO_cons_inv in E as (y & l & -> & E & M). simpl. rewrite (resolve_ext _ _ _ _ _ _ E), (IH _ M). auto.
Qed.
Lemma mapO_seq {A} (f : nat -> option A) (l : list A) k : (forall i, i < length l -> f (k + i) = nth_error l i) -> mapO f (seq k (length l)) = Some l.
Proof.
  revert k. induction l as [|x l IH]; intros k H; auto. simpl. pose proof (H 0 ltac:(simpl; lia)) as H0. rewrite Nat.add_0_r in H0. rewrite H0. simpl.
  rewrite IH; auto. intros i Hi. specialize (H (S i) ltac:(simpl; lia)). rewrite Nat.add_succ_r in H. exact H.
Qed.
Theorem copy_seen orig vf : runs depth orig ims vars vf -> forall d n rs, copy b vb im d n rs -> forall v w more vmore, sc_items orig = d ++ more -> vf = v ++ vmore -> vrel d v w ->
  exists hs, mapO (resolve (vals1 ++ w) imports vars') rs = Some hs /\ Forall2 (fun a h => site_means depth orig ims (fst a) (snd a) h) (items_sites d 0) hs.
Proof.
  intros Rn. induction 1 as [|d n rs nd nd' r C IH K E Hr|d n rs c c' C IH K F R N E H]; intros v w more vmore Es Ev Rv.
  - exists []. split; auto. constructor.
  - apply vrel_snoc_inv in Rv as (v0 & w0 & x & x' & -> & -> & Rv & Hx). rewrite <- app_assoc in Es, Ev.
    destruct (IH _ _ _ _ Es Ev Rv) as (hs & A & B). simpl in Hx. destruct x as [o|]; [|contradiction]. destruct x' as [o'|]; [|contradiction]. subst o'.
    pose proof (vrel_nth _ _ _ Rv) as (L1 & L2 & _).
    assert (G : exists h, resolve (vals1 ++ w0 ++ [VOp o]) imports vars' r = Some h /\ same_coll o h).
    { assert (Self : exists h, resolve (vals1 ++ w0 ++ [VOp o]) imports vars' (RLocal (b + length d)) = Some h /\ same_coll o h).
      { exists o. split; [|apply same_coll_refl]. rewrite app_assoc. simpl. rewrite nth_error_app2 by (rewrite app_length; lia).
        rewrite app_length. replace (b + length d - (b + length w0)) with 0 by lia. auto. }
      destruct nd; try (subst r; exact Self). destruct (look_same d v0 w0 input Rv (K _ (or_introl eq_refl))) as (r' & Er & El). rewrite Hr in Er. injection Er as <-.
      destruct Rn as (_ & [_ V] & _). specialize (V (length d) (IOp (NArrange input))). rewrite Es, nth_error_app2, Nat.sub_diag in V by lia. specialize (V eq_refl).
      destruct V as (c & Ec & Mc). rewrite Ev, <- L1, nth_error_app2, Nat.sub_diag in Ec by lia. injection Ec as <-. destruct Mc as (h & Eh & Sh).
      exists h. split; auto. rewrite Ev, <- L1, firstn_app, Nat.sub_diag, firstn_all in Eh. simpl in Eh. rewrite app_nil_r in Eh. rewrite app_assoc. apply resolve_ext. congruence. }
    destruct G as (h & Eh & Sh). exists (hs ++ [h]). split.
    + apply mapO_app_some; [rewrite app_assoc; apply mapO_resolve_ext; auto|]. cbn [mapO]. rewrite Eh. auto.
    + rewrite items_sites_app. apply Forall2_app; auto. constructor; [|constructor]. cbn [fst snd site_means plus].
      eapply scope_closed; [apply Forall2_same_refl|constructor; [exact Sh|constructor]|]. apply (runs_reading _ _ _ _ vars vf); auto.
      cbn [mapO]. rewrite Ev. simpl. rewrite <- L1, nth_error_app2, Nat.sub_diag by lia. auto.
  - apply vrel_snoc_inv in Rv as (v0 & w0 & x & x' & -> & -> & Rv & Hx). rewrite <- app_assoc in Es, Ev.
    destruct (IH _ _ _ _ Es Ev Rv) as (hs & A & B). simpl in Hx. destruct x as [|o]; [contradiction|]. destruct x' as [|o']; [contradiction|].
    destruct Hx as (h & i' & -> & Lo & I & S). pose proof (vrel_nth _ _ _ Rv) as (L1 & L2 & _). exists (hs ++ h). split.
    + apply mapO_app_some; [rewrite app_assoc; apply mapO_resolve_ext; auto|]. unfold host_refs. rewrite mapO_map. rewrite (F2_length _ _ _ S). apply mapO_seq.
      intros k Hk. simpl. rewrite app_assoc, nth_error_app2 by (rewrite app_length; lia). rewrite app_length. replace (b + length d - (b + length w0)) with 0 by lia. simpl.
      rewrite nth_error_app2 by lia. f_equal. lia.
    + rewrite items_sites_app. apply Forall2_app; auto. simpl. rewrite app_nil_r. clear -S I Es Ev Rn L1.
      assert (Ec : nth_error (sc_items orig) (length d) = Some (ISub c)) by (rewrite Es, nth_error_app2, Nat.sub_diag by lia; auto).
      assert (Mi : scope_means depth (reading orig (import_refs (sc_imports c))) ims i').
      { apply (runs_reading _ _ _ _ vars vf); auto. rewrite Ev. apply mapO_resolve_ext; auto. }
      induction S as [|a x ss h (g & l & Hg & El & Hl) _ IH]; constructor; auto. cbn [fst snd site_means]. exists c, i', g, l. auto.
Qed.
End Values.
