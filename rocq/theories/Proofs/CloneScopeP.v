(** Cloned scopes: a scope with the copy of another in it, and scopes that export what they compute inside. *)
From Verif Require Export Proofs.CloneCopyP.
From Verif Require Import Base.Collections Base.Arrays Base.Order Spec.PointStampSpec.
Local Open Scope nat_scope.

Lemma ref_resolve s ims vars1 vars vals more bound r : ref_ok s bound r -> bound <= length (sc_items s) -> length vars1 = length (sc_vars s) -> length vals = length (sc_items s) ->
  resolve (vals ++ more) ims (vars1 ++ vars) r = resolve vals ims vars1 r.
Proof.
  intros R Hb Lv L. destruct r as [i|i|i|i j]; simpl in *; auto.
  - rewrite nth_error_app1 by lia. auto.
  - rewrite nth_error_app1 by lia. auto.
  - rewrite nth_error_app1 by lia. auto.
Qed.
Lemma vals_vars depth s ims vars1 vars vals : refs_ok s -> length vars1 = length (sc_vars s) ->
  vals_ok depth ims (vars1 ++ vars) (sc_items s) vals <-> vals_ok depth ims vars1 (sc_items s) vals.
Proof.
  intros (R & _) Lv. assert (G : forall va vb, (forall bound r, ref_ok s bound r -> forall v, resolve v ims va r = resolve v ims vb r) -> vals_ok depth ims va (sc_items s) vals -> vals_ok depth ims vb (sc_items s) vals).
  { intros va vb H [L V]. split; auto. intros n it E. specialize (V n it E). apply item_means_new in V as (x & Ex & V). apply item_means_new. exists x. split; auto.
    change (item_full depth (resolve (firstn n vals) ims vb) it x). eapply item_full_rel; [|exact V]. intros r Hr. rewrite (H n r) by eauto. apply orel_refl. }
  assert (Q : forall bound r, ref_ok s bound r -> forall v, resolve v ims (vars1 ++ vars) r = resolve v ims vars1 r).
  { intros bound [i|i|i|i j] K v; simpl in *; auto. rewrite nth_error_app1 by lia. auto. }
  split; apply G; intros; [|symmetry]; eauto.
Qed.

(** ** The splice *)
Definition bind_shift (vb : nat) (f : Ref -> option Ref) (b : Bind) : option Bind := v <- f (bi_value b); Some {| bi_var := vb + bi_var b; bi_value := v |}.
Lemma shift_vars vb f bs bs' : mapO (bind_shift vb f) bs = Some bs' -> map bi_var bs' = map (fun b => vb + bi_var b) bs.
Proof.
  revert bs'. induction bs as [|x bs IH]; intros bs' Q; [injection Q as <-; auto|].
  apply mapO_cons_inv in Q as (y & l & -> & E & M). simpl. rewrite (IH l M). unfold bind_shift in E. destruct (f (bi_value x)); [|discriminate]. injection E as <-. auto.
Qed.
Lemma find_app {A} (p : A -> bool) l1 l2 : find p (l1 ++ l2) = match find p l1 with Some x => Some x | None => find p l2 end.
Proof. induction l1 as [|x l1 IH]; simpl; auto. destruct (p x); auto. Qed.
Lemma find_none' {A} (p : A -> bool) l : (forall x, In x l -> p x = false) -> find p l = None.
Proof. induction l as [|x l IH]; simpl; auto. intros H. rewrite (H x) by auto. auto. Qed.
Lemma find_shift vb f bs bs' v : mapO (bind_shift vb f) bs = Some bs' ->
  match find (fun b => bi_var b =? v) bs with
  | Some b => exists r, f (bi_value b) = Some r /\ find (fun b => bi_var b =? vb + v) bs' = Some {| bi_var := vb + bi_var b; bi_value := r |}
  | None => find (fun b => bi_var b =? vb + v) bs' = None
  end.
Proof.
  revert bs'. induction bs as [|b bs IH]; intros bs' Q; [injection Q as <-; simpl; auto|].
  apply mapO_cons_inv in Q as (y & l & -> & E & M). specialize (IH l M). unfold bind_shift in E. destruct (f (bi_value b)) as [r|] eqn:Er; [|discriminate]. injection E as <-.
  simpl. destruct (Nat.eqb_spec (bi_var b) v) as [->|Hn]; [rewrite Nat.eqb_refl; eauto|]. destruct (Nat.eqb_spec (vb + bi_var b) (vb + v)); [lia|]. auto.
Qed.

Section Splice.
Variables (orig out : Scope) (im : list Ref) (n : list Item) (rs : list Ref) (bs' : list Bind) (es' : list Export).
Local Notation f := (sref (length (sc_items out)) (length (sc_vars out)) im).
Hypothesis (Ro : refs_ok orig) (Ru : refs_ok out) (Rim : forall r, In r im -> ref_ok out (length (sc_items out)) r) (Lim : length im = length (sc_imports orig)).
Hypothesis (Bo : Forall (fun b => bi_var b < length (sc_vars out)) (sc_binds out)).
Hypothesis (C : copy (length (sc_items out)) (length (sc_vars out)) im (sc_items orig) n rs).
Hypothesis (Eb : mapO (bind_shift (length (sc_vars out)) f) (sc_binds orig) = Some bs') (Ee : mapO (export_each f) (sc_exports orig) = Some es').
Definition spliced : Scope := MkScope (sc_name out) (sc_imports out) (sc_vars out ++ sc_vars orig) (sc_items out ++ n) (sc_binds out ++ bs') (sc_exports out ++ es').

Lemma ref_known bound r : ref_ok orig bound r -> known (length im) (sc_items orig) r.
Proof. destruct r as [i|i|i|i j]; simpl; try tauto. lia. Qed.

Section Vals.
Variables (depth : nat) (imports vars1 vars : list coll) (vals1 w v : list rvalue) (ims : list coll).
Hypothesis (Li : length imports = length (sc_imports out)) (Lv1 : length vars1 = length (sc_vars out)) (L1 : length vals1 = length (sc_items out)).
Hypothesis (Him : mapO (resolve vals1 imports vars1) im = Some ims) (R : vrel depth vars ims (sc_items orig) v w).
Lemma him : mapO (resolve vals1 imports (vars1 ++ vars)) im = Some ims.
Proof.
  rewrite <- Him. apply mapO_ext. intros r Hr. rewrite <- (app_nil_r vals1) at 1. apply (ref_resolve out _ _ _ _ _ (length (sc_items out))); auto.
Qed.
Lemma look_out bound r : ref_ok out bound r -> bound <= length (sc_items out) -> resolve (vals1 ++ w) imports (vars1 ++ vars) r = resolve vals1 imports vars1 r.
Proof. intros H Hb. apply (ref_resolve out _ _ _ _ _ bound); auto. Qed.
Lemma look_orig bound r : ref_ok orig bound r -> exists r', f r = Some r' /\ resolve (vals1 ++ w) imports (vars1 ++ vars) r' = resolve v ims vars r.
Proof. intros H. rewrite <- L1, <- Lv1. apply (look_same depth imports vars1 vars vals1 im ims him (sc_items orig) v w); auto. eapply ref_known; eauto. Qed.

Lemma binds_iff : length vars = length (sc_vars orig) ->
  (forall x c, nth_error (vars1 ++ vars) x = Some c -> bind_means depth (resolve (vals1 ++ w) imports (vars1 ++ vars)) (sc_binds out ++ bs') x c) <->
  (forall x c, nth_error vars1 x = Some c -> bind_means depth (resolve vals1 imports vars1) (sc_binds out) x c) /\
  (forall x c, nth_error vars x = Some c -> bind_means depth (resolve v ims vars) (sc_binds orig) x c).
Proof using Ro Ru Rim Lim Bo Eb Li Lv1 L1 Him R.
  intros Lv. destruct Ro as (_ & Rb & _). destruct Ru as (_ & Rbu & _). rewrite Forall_forall in Bo.
  assert (G1 : forall x c, x < length vars1 -> bind_means depth (resolve (vals1 ++ w) imports (vars1 ++ vars)) (sc_binds out ++ bs') x c <-> bind_means depth (resolve vals1 imports vars1) (sc_binds out) x c).
  { intros x c Hx. unfold bind_means. rewrite find_app. destruct (find (fun b => bi_var b =? x) (sc_binds out)) as [b|] eqn:E.
    - apply find_some in E as (Hb & _). rewrite (look_out (length (sc_items out))) by auto. tauto.
    - rewrite find_none'; [tauto|]. intros b Hb. apply (in_map bi_var) in Hb. rewrite (shift_vars _ _ _ _ Eb) in Hb. apply in_map_iff in Hb as (b0 & <- & _).
      apply Nat.eqb_neq. lia. }
  assert (G2 : forall x c, bind_means depth (resolve (vals1 ++ w) imports (vars1 ++ vars)) (sc_binds out ++ bs') (length vars1 + x) c <-> bind_means depth (resolve v ims vars) (sc_binds orig) x c).
  { intros x c. unfold bind_means. rewrite find_app, (find_none' _ (sc_binds out)).
    2:{ intros b Hb. apply Bo in Hb. apply Nat.eqb_neq. lia. }
    rewrite Lv1. pose proof (find_shift _ _ _ _ x Eb) as H. destruct (find (fun b => bi_var b =? x) (sc_binds orig)) as [b|] eqn:E.
    - destruct H as (r & Er & ->). simpl. apply find_some in E as (Hb & _). destruct (look_orig _ _ (Rb _ Hb)) as (r' & Er' & El). rewrite Er in Er'. injection Er' as <-. rewrite El. tauto.
    - rewrite H. tauto. }
  split.
  - intros H. split; intros x c E.
    + apply G1; [apply nth_error_Some; congruence|]. apply H. rewrite nth_error_app1; auto. apply nth_error_Some; congruence.
    + apply G2, H. rewrite nth_error_app2 by lia. replace (length vars1 + x - length vars1) with x by lia. auto.
  - intros (H1 & H2) x c E. destruct (lt_dec x (length vars1)) as [Hx|Hx].
    + rewrite nth_error_app1 in E by auto. apply G1; auto.
    + rewrite nth_error_app2 in E by lia. replace x with (length vars1 + (x - length vars1)) by lia. apply G2, H2. auto.
Qed.
Lemma exports_copy : mapO (fun e => resolve (vals1 ++ w) imports (vars1 ++ vars) (ex_value e)) es' = mapO (fun e => resolve v ims vars (ex_value e)) (sc_exports orig).
Proof using Ro Rim Lim Ee Li Lv1 L1 Him R.
  rewrite (export_each_means _ _ _ _ Ee). apply mapO_ext. intros e He. destruct Ro as (_ & _ & Re). destruct (look_orig _ _ (Re e He)) as (r' & Er & El). unfold after. rewrite Er. auto.
Qed.
End Vals.

Lemma binds_wf : (Forall (fun b => bi_var b < length (sc_vars spliced)) (sc_binds spliced) /\ NoDup (map bi_var (sc_binds spliced))) <->
  (Forall (fun b => bi_var b < length (sc_vars out)) (sc_binds out) /\ NoDup (map bi_var (sc_binds out))) /\
  (Forall (fun b => bi_var b < length (sc_vars orig)) (sc_binds orig) /\ NoDup (map bi_var (sc_binds orig))).
Proof.
  unfold spliced; simpl. rewrite app_length, map_app, Forall_app, (shift_vars _ _ _ _ Eb).
  assert (F : Forall (fun b => bi_var b < length (sc_vars out) + length (sc_vars orig)) bs' <-> Forall (fun b => bi_var b < length (sc_vars orig)) (sc_binds orig)).
  { rewrite <- (Forall_map bi_var (fun x => x < length (sc_vars out) + length (sc_vars orig)) bs'), (shift_vars _ _ _ _ Eb), Forall_map.
    split; intros H; (eapply Forall_impl; [|exact H]); simpl; intros; lia. }
  rewrite F. assert (Inj : NoDup (map (fun b => length (sc_vars out) + bi_var b) (sc_binds orig)) <-> NoDup (map bi_var (sc_binds orig))).
  { replace (map (fun b => length (sc_vars out) + bi_var b) (sc_binds orig)) with (map (fun x => length (sc_vars out) + x) (map bi_var (sc_binds orig))) by (rewrite map_map; auto).
    split; [apply NoDup_map_inv|]. apply FinFun.Injective_map_NoDup. intros x y. lia. }
  split.
  - intros ((F1 & F2) & N). split; split; auto; [|apply Inj]; clear -N; induction (map bi_var (sc_binds out)) as [|x l IH]; simpl in *; auto; try constructor; apply NoDup_cons_iff in N as (N1 & N2); auto.
    rewrite in_app_iff in N1. tauto.
  - intros ((F1 & N1) & F2 & N2). split; [split; auto; eapply Forall_impl; [|exact F1]; simpl; intros; lia|]. apply Inj in N2. clear -F1 N1 N2.
    assert (D : forall x, In x (map bi_var (sc_binds out)) -> x < length (sc_vars out)). { intros x Hx. apply in_map_iff in Hx as (b & <- & Hb). rewrite Forall_forall in F1. auto. }
    induction (map bi_var (sc_binds out)) as [|x l IH]; simpl; auto. apply NoDup_cons_iff in N1 as (A & B). constructor; [|apply IH; auto; intros; apply D; right; auto].
    rewrite in_app_iff. intros [H|H]; auto. apply in_map_iff in H as (b & E & _). specialize (D x (or_introl eq_refl)). lia.
Qed.

Theorem splice_back depth imports vars' vals' : length imports = length (sc_imports out) -> runs depth spliced imports vars' vals' ->
  exists vars1 vars vals1 w ims v, vars' = vars1 ++ vars /\ vals' = vals1 ++ w /\ length vars1 = length (sc_vars out) /\ length vals1 = length (sc_items out) /\
    runs depth out imports vars1 vals1 /\ mapO (resolve vals1 imports vars1) im = Some ims /\ runs depth orig ims vars v /\ vrel depth vars ims (sc_items orig) v w.
Proof.
  intros Li (Lv & V & W & B & D). apply binds_wf in W as (W1 & W2). simpl in Lv, V. rewrite app_length in Lv.
  destruct (vals_prefix _ _ _ _ _ _ V) as (vals1 & w & -> & V1).
  set (vars1 := firstn (length (sc_vars out)) vars'). set (vars := skipn (length (sc_vars out)) vars').
  assert (Ev : vars' = vars1 ++ vars) by (symmetry; apply firstn_skipn).
  assert (Lv1 : length vars1 = length (sc_vars out)) by (unfold vars1; rewrite firstn_length; lia).
  assert (Lv2 : length vars = length (sc_vars orig)) by (unfold vars; rewrite skipn_length; lia).
  clearbody vars1 vars. subst vars'. pose proof (proj1 (vals_vars depth out imports vars1 vars vals1 Ru Lv1) V1) as V1'. pose proof (proj1 V1) as L1.
  assert (Him : exists ims, mapO (resolve vals1 imports vars1) im = Some ims).
  { apply mapO_total. intros r Hr. specialize (Rim r Hr). destruct V1' as [L V1']. destruct r as [i|i|i|i j]; simpl in *.
    - destruct Rim as (_ & nd & E). destruct (V1' _ _ E) as (c & -> & _). discriminate.
    - apply nth_error_Some. lia.
    - apply nth_error_Some. lia.
    - destruct Rim as (_ & c & E & Hj). destruct (V1' _ _ E) as (i' & e & o & -> & _ & M & F). apply means_length in M. apply F2_length in F. apply nth_error_Some. lia. }
  destruct Him as (ims & Him).
  pose proof (him imports vars1 vars vals1 ims Lv1 L1 Him) as Him'.
  assert (C' : copy (length vals1) (length vars1) im (sc_items orig) n rs) by (rewrite L1, Lv1; auto).
  destruct (copy_back depth imports vars1 vars vals1 im ims (sc_items out) Him' V1 _ _ _ C' w V) as (v & Vv & R).
  exists vars1, vars, vals1, w, ims, v. split; auto. split; auto. split; auto. split; auto.
  assert (B' := B). apply (binds_iff depth imports vars1 vars vals1 w v ims Li Lv1 L1 Him R Lv2) in B' as (B1 & B2).
  unfold spliced in D; simpl in D. split; [|split; auto; split; auto].
  - split; auto. split; auto. split; auto. split; auto. intros Q. apply D. destruct (sc_vars out); [congruence|discriminate].
  - split; auto. split; auto. split; auto. split; auto. intros Q. apply D. destruct (sc_vars out); [auto|discriminate].
Qed.
Theorem splice_forth depth imports vars1 vals1 ims vars v : length imports = length (sc_imports out) -> runs depth out imports vars1 vals1 ->
  mapO (resolve vals1 imports vars1) im = Some ims -> runs depth orig ims vars v -> exists w, runs depth spliced imports (vars1 ++ vars) (vals1 ++ w) /\ vrel depth vars ims (sc_items orig) v w.
Proof.
  intros Li (Lv1 & V1 & W1 & B1 & D1) Him (Lv2 & V2 & W2 & B2 & D2). pose proof (proj1 V1) as L1.
  pose proof (him imports vars1 vars vals1 ims Lv1 L1 Him) as Him'.
  pose proof (proj2 (vals_vars depth out imports vars1 vars vals1 Ru Lv1) V1) as V1'.
  assert (C' : copy (length vals1) (length vars1) im (sc_items orig) n rs) by (rewrite L1, Lv1; auto).
  destruct (copy_forth depth imports vars1 vars vals1 im ims (sc_items out) Him' V1' _ _ _ C' v V2) as (w & Vw & R). exists w. split; auto.
  split; [unfold spliced; simpl; rewrite !app_length; lia|]. split; auto. split; [apply binds_wf; auto|].
  split; [apply (binds_iff depth imports vars1 vars vals1 w v ims Li Lv1 L1 Him R Lv2); auto|].
  unfold spliced; simpl. destruct (sc_vars out) eqn:E; [auto|]. intros _. apply D1. discriminate.
Qed.

(** What the splice has, read where the outer scope, the original's exports and all its places are. *)
Definition var_refs : list Ref := map (fun x => RVar (length (sc_vars out) + x)) (seq 0 (length (sc_vars orig))).
Lemma seen_all depth imports vars1 vars vals1 w ims v : length vars1 = length (sc_vars out) -> length vals1 = length (sc_items out) ->
  mapO (resolve vals1 imports vars1) im = Some ims -> runs depth orig ims vars v -> vrel depth vars ims (sc_items orig) v w ->
  exists hs, mapO (resolve (vals1 ++ w) imports (vars1 ++ vars)) (var_refs ++ rs) = Some hs /\ Forall2 (fun a h => site_means depth orig ims (fst a) (snd a) h) (sites orig) hs.
Proof.
  intros Lv1 L1 Him Rn R. pose proof (him imports vars1 vars vals1 ims Lv1 L1 Him) as Him'. pose proof (proj1 Rn) as Lv2.
  assert (C' : copy (length vals1) (length vars1) im (sc_items orig) n rs) by (rewrite L1, Lv1; auto).
  destruct (copy_seen depth imports vars1 vars vals1 im ims Him' orig v Rn _ _ _ C' v w [] []) as (hs & A & B); auto; [rewrite app_nil_r; auto|rewrite app_nil_r; auto|].
  exists (vars ++ hs). split.
  - apply mapO_app_some; auto. unfold var_refs. rewrite mapO_map, <- Lv2. apply mapO_seq. intros i Hi. simpl. rewrite nth_error_app2 by lia. f_equal. lia.
  - rewrite sites_eq. apply Forall2_app; auto. rewrite <- Lv2. clear -Rn. assert (G : forall k l, (forall i c, nth_error l i = Some c -> nth_error vars (k + i) = Some c) ->
      Forall2 (fun a h => site_means depth orig ims (fst a) (snd a) h) (map (fun x => ([], SiteVar x)) (seq k (length l))) l).
    { intros k l. revert k. induction l as [|c l IH]; intros k H; constructor.
      - cbn [fst snd site_means]. apply (runs_reading _ _ _ _ vars v); auto. cbn [mapO resolve]. specialize (H 0 c eq_refl). rewrite Nat.add_0_r in H. rewrite H. auto.
      - apply IH. intros i x E. specialize (H (S i) x E). rewrite Nat.add_succ_r in H. auto. }
    apply G. auto.
Qed.
Lemma Forall2_split {A B} (P : A -> B -> Prop) l1 l2 r1 r2 : length l1 = length r1 -> Forall2 P (l1 ++ l2) (r1 ++ r2) -> Forall2 P l1 r1 /\ Forall2 P l2 r2.
Proof.
  revert r1. induction l1 as [|x l1 IH]; intros [|y r1] L H; simpl in L; try discriminate; [split; auto|].
  inversion H; subst. destruct (IH r1) as (H1 & H2); auto.
Qed.
Lemma mapO_app_inv {A B} (g : A -> option B) l1 l2 r : mapO g (l1 ++ l2) = Some r -> exists r1 r2, r = r1 ++ r2 /\ mapO g l1 = Some r1 /\ mapO g l2 = Some r2.
Proof.
  revert r. induction l1 as [|x l1 IH]; intros r E; [exists [], r; auto|]. simpl app in E. apply mapO_cons_inv in E as (y & q & -> & E & M).
  destruct (IH q M) as (r1 & r2 & -> & A1 & A2). exists (y :: r1), r2. simpl. rewrite E, A1. auto.
Qed.
Theorem splice_means rd : (forall r, In r rd -> ref_ok out (length (sc_items out)) r) -> forall depth imports oc exs hosts,
  length imports = length (sc_imports out) -> length oc = length rd -> length exs = length (sc_exports orig) ->
  scope_means depth (reading spliced (rd ++ map ex_value es' ++ var_refs ++ rs)) imports (oc ++ exs ++ hosts) <->
  exists ims, scope_means depth (reading out (rd ++ im)) imports (oc ++ ims) /\ scope_means depth orig ims exs /\
    Forall2 (fun a h => site_means depth orig ims (fst a) (snd a) h) (sites orig) hosts.
Proof.
  intros Rd depth imports oc exs hosts Li Lo Le. split.
  - intros M. apply reading_runs in M as (vars' & vals' & Rn & outs & E & F).
    destruct (splice_back depth imports vars' vals' Li Rn) as (vars1 & vars & vals1 & w & ims & v & -> & -> & Lv1 & L1 & R1 & Him & R2 & Rv).
    destruct (seen_all depth imports vars1 vars vals1 w ims v Lv1 L1 Him R2 Rv) as (hs & Eh & Fh).
    apply mapO_app_inv in E as (o1 & o2 & -> & E1 & E2). apply mapO_app_inv in E2 as (o2' & o3 & -> & E2 & E3). rewrite Eh in E3. injection E3 as <-.
    apply Forall2_split in F as (F1 & F2); [|apply mapO_length' in E1; congruence].
    apply Forall2_split in F2 as (F2 & F3); [|apply mapO_length' in E2; rewrite map_length in E2; apply mapO_length' in Ee; congruence].
    exists ims. split; [|split].
    + apply reading_runs. exists vars1, vals1. split; auto. exists (o1 ++ ims). split.
      * apply mapO_app_some; auto. rewrite <- E1. apply mapO_ext. intros r Hr. symmetry. apply (look_out imports vars1 vars vals1 w Lv1 L1 (length (sc_items out))); auto.
      * apply Forall2_app; auto. apply Forall2_same_refl.
    + apply means_runs. exists vars, v. split; auto. exists o2'. split; auto. rewrite mapO_map in E2. rewrite <- E2. symmetry.
      apply (exports_copy depth imports vars1 vars vals1 w v ims); auto.
    + assert (G : forall ss hs hs', Forall2 same_coll hs hs' -> Forall2 (fun a h => site_means depth orig ims (fst a) (snd a) h) ss hs -> Forall2 (fun a h => site_means depth orig ims (fst a) (snd a) h) ss hs').
      { clear. intros ss hs hs' H. revert ss. induction H as [|x y hs hs' Hxy _ IH]; intros ss F; inversion F; subst; constructor; auto. eapply site_closed; [apply Forall2_same_refl|exact Hxy|auto]. }
      eapply G; eauto.
  - intros (ims & M1 & M2 & S). apply reading_runs in M1 as (vars1 & vals1 & R1 & outs & E & F).
    apply mapO_app_inv in E as (o1 & ims' & -> & E1 & E2). apply Forall2_split in F as (F1 & F2); [|apply mapO_length' in E1; congruence].
    apply Forall2_same_sym in F2.
    assert (M2' : scope_means depth orig ims' exs) by (eapply scope_closed; [exact F2|apply Forall2_same_refl|exact M2]).
    apply means_runs in M2' as (vars & v & R2 & o2 & Eo & Fo).
    destruct (splice_forth depth imports vars1 vals1 ims' vars v Li R1 E2 R2) as (w & Rw & Rv).
    pose proof (proj1 R1) as Lv1. pose proof (proj1 (proj1 (proj2 R1))) as L1.
    destruct (seen_all depth imports vars1 vars vals1 w ims' v Lv1 L1 E2 R2 Rv) as (hs & Eh & Fh).
    apply reading_runs. exists (vars1 ++ vars), (vals1 ++ w). split; auto. exists (o1 ++ o2 ++ hs). split.
    + apply mapO_app_some; [|apply mapO_app_some; auto].
      * rewrite <- E1. apply mapO_ext. intros r Hr. apply (look_out imports vars1 vars vals1 w Lv1 L1 (length (sc_items out))); auto.
      * rewrite mapO_map, <- Eo. apply (exports_copy depth imports vars1 vars vals1 w v ims'); auto.
    + apply Forall2_app; auto. apply Forall2_app; auto. clear -S Fh F2.
      revert hosts S. induction Fh as [|a h ss hs Hh _ IH]; intros hosts S; inversion S; subst; constructor; auto.
      eapply site_unique; [apply Forall2_same_sym; exact F2|exact Hh|auto].
Qed.
End Splice.
