(** Cloned scopes: places and what is there. *)
From Verif Require Export Spec.CloneSpec Proofs.OptimizeP Proofs.LowerTreeP Proofs.LowerP Proofs.LowerScopeP.
From Verif Require Import Base.Collections Base.Arrays Base.Order Spec.PointStampSpec.
Local Open Scope nat_scope.

Definition runs (depth : nat) (s : Scope) (ims vars : list coll) (vals : list rvalue) : Prop :=
  length vars = length (sc_vars s) /\ vals_ok depth ims vars (sc_items s) vals /\
  (Forall (fun b => bi_var b < length (sc_vars s)) (sc_binds s) /\ NoDup (map bi_var (sc_binds s))) /\
  (forall v c, nth_error vars v = Some c -> bind_means depth (resolve vals ims vars) (sc_binds s) v c) /\
  (sc_vars s <> [] -> depth <> 0).
Lemma means_runs depth s ims exs : scope_means depth s ims exs <-> exists vars vals, runs depth s ims vars vals /\
  exists outs, mapO (fun e => resolve vals ims vars (ex_value e)) (sc_exports s) = Some outs /\ Forall2 same_coll outs exs.
Proof.
  rewrite scope_means_iff. unfold runs, vals_ok. split; intros (vars & vals & H); exists vars, vals; tauto.
Qed.
Lemma mapO_map {A B C} (f : B -> option C) (g : A -> B) l : mapO f (map g l) = mapO (fun x => f (g x)) l.
Proof. induction l as [|x l IH]; simpl; auto. rewrite IH. auto. Qed.
Lemma reading_runs depth s rs ims cs : scope_means depth (reading s rs) ims cs <-> exists vars vals, runs depth s ims vars vals /\
  exists outs, mapO (resolve vals ims vars) rs = Some outs /\ Forall2 same_coll outs cs.
Proof. rewrite means_runs. unfold reading, runs; simpl. split; intros (vars & vals & H); exists vars, vals; rewrite mapO_map in *; exact H. Qed.
Lemma runs_reading depth s rs ims vars vals cs : runs depth s ims vars vals -> mapO (resolve vals ims vars) rs = Some cs -> scope_means depth (reading s rs) ims cs.
Proof. intros R M. apply reading_runs. exists vars, vals. split; auto. exists cs. split; auto. apply Forall2_same_refl. Qed.
Lemma scope_same depth s ims1 ims2 ex1 ex2 : Forall2 same_coll ims1 ims2 -> scope_means depth s ims1 ex1 -> scope_means depth s ims2 ex2 -> Forall2 same_coll ex1 ex2.
Proof.
  intros Hi M1 M2. assert (H : Forall2 (agree (D:=row) (T:=itime) (R:=Z) (fun _ => True)) ex1 ex2).
  { apply (scope_unique s depth (fun _ => True) ims1 ims2); auto.
    - intros ? ? _ _; exact I.
    - intros ? ? _ _ _; exact I.
    - clear -Hi. induction Hi; constructor; auto. apply agree_same_coll; auto. }
  clear -H. induction H; constructor; auto. apply agree_same_coll; auto.
Qed.
Lemma means_length depth s ims exs : scope_means depth s ims exs -> length exs = length (sc_exports s).
Proof. intros M. apply means_runs in M as (vars & vals & _ & outs & E & F). apply mapO_length' in E. apply F2_length in F. congruence. Qed.

Lemma runs_resolve depth s ims vars vals bound r : runs depth s ims vars vals -> length ims = length (sc_imports s) -> ref_ok s bound r ->
  exists c, resolve vals ims vars r = Some c.
Proof.
  intros (Lv & [L V] & _) Li. destruct r as [i|i|i|i j]; simpl.
  - intros (_ & n & E). destruct (V _ _ E) as (c & -> & _). eauto.
  - intros H. destruct (nth_error ims i) eqn:E; eauto. apply nth_error_None in E. lia.
  - intros H. destruct (nth_error vars i) eqn:E; eauto. apply nth_error_None in E. lia.
  - intros (_ & c & E & Hj). destruct (V _ _ E) as (i' & e & o & -> & _ & M & F). apply means_length in M. apply F2_length in F.
    destruct (nth_error o j) eqn:Ej; eauto. apply nth_error_None in Ej. lia.
Qed.
Lemma imported_refs look is : Forall (fun im => exists r, im_from im = SParent r) is -> imported look is = mapO look (import_refs is).
Proof.
  unfold imported, import_refs. induction 1 as [|im is (r & E) _ IH]; simpl; auto. rewrite E, IH. simpl. auto.
Qed.
Lemma refs_length is : Forall (fun im => exists r, im_from im = SParent r) is -> length (import_refs is) = length is.
Proof. unfold import_refs. induction 1 as [|im is (r & E) _ IH]; simpl; auto. rewrite E. simpl. auto. Qed.

(** ** Places *)
Definition item_sites (n : nat) (it : Item) : list (list nat * Site) :=
  match it with IOp _ => [([], SiteOp n)] | ISub c => map (fun a => (n :: fst a, snd a)) (sites c) end.
Fixpoint items_sites (its : list Item) (n : nat) : list (list nat * Site) :=
  match its with [] => [] | it :: its => item_sites n it ++ items_sites its (S n) end.
Lemma sites_eq s : sites s = map (fun v => ([], SiteVar v)) (seq 0 (length (sc_vars s))) ++ items_sites (sc_items s) 0.
Proof.
  destruct s as [nm ims vs its bs es]. simpl. f_equal. generalize 0. induction its as [|it its IH]; intros n; auto.
  destruct it as [nd|c]; simpl; rewrite IH; auto.
Qed.
Lemma items_sites_app l1 : forall n l2, items_sites (l1 ++ l2) n = items_sites l1 n ++ items_sites l2 (n + length l1).
Proof.
  induction l1 as [|it l1 IH]; intros n l2; simpl; [rewrite Nat.add_0_r; auto|]. rewrite IH, <- app_assoc. do 3 f_equal. lia.
Qed.
Lemma in_items_sites its : forall n a, In a (items_sites its n) -> exists i it, nth_error its i = Some it /\ In a (item_sites (n + i) it).
Proof.
  induction its as [|it its IH]; intros n a; simpl; [intros []|]. intros H. apply in_app_iff in H as [H|H].
  - exists 0, it. rewrite Nat.add_0_r. auto.
  - destruct (IH _ _ H) as (i & it' & E & H'). exists (S i), it'. split; auto. replace (n + S i) with (S n + i) by lia. auto.
Qed.

Theorem site_unique path : forall depth s ims1 ims2 x c1 c2, Forall2 same_coll ims1 ims2 ->
  site_means depth s ims1 path x c1 -> site_means depth s ims2 path x c2 -> same_coll c1 c2.
Proof.
  induction path as [|i path IH]; intros depth s ims1 ims2 x c1 c2 Hi; cbn [site_means].
  - intros M1 M2. pose proof (scope_same _ _ _ _ _ _ Hi M1 M2) as H. inversion H; auto.
  - intros (ch1 & i1 & n1 & l1 & E1 & M1 & S1 & T1 & Q1) (ch2 & i2 & n2 & l2 & E2 & M2 & S2 & T2 & Q2).
    rewrite E1 in E2. injection E2 as <-. pose proof (scope_same _ _ _ _ _ _ Hi M1 M2) as Hi'.
    pose proof (IH _ _ _ _ _ _ _ Hi' S1 S2) as Hn. apply (linear_same [LLiftIter] (S depth)) in Hn.
    destruct (same_left _ _ _ _ T1 Hn) as (l & T & Hl). rewrite T2 in T. injection T as <-.
    eapply same_coll_trans; [exact Q1|]. eapply same_coll_trans; [exact Hl|]. apply same_coll_sym; auto.
Qed.
Lemma site_closed path : forall depth s ims1 ims2 x c1 c2, Forall2 same_coll ims1 ims2 -> same_coll c1 c2 -> site_means depth s ims1 path x c1 -> site_means depth s ims2 path x c2.
Proof.
  induction path as [|i path IH]; intros depth s ims1 ims2 x c1 c2 Hi Hc; cbn [site_means].
  - apply scope_closed; auto.
  - intros (ch & i1 & n & l & E & M & S & T & Q). exists ch, i1, n, l. split; auto. split; [eapply scope_closed; [exact Hi|apply Forall2_same_refl|exact M]|].
    split; auto. split; auto. eapply same_coll_trans; [apply same_coll_sym; exact Hc|auto].
Qed.

Lemma everywhere_here P s : everywhere P s -> P s. Proof. intros []; auto. Qed.
Lemma everywhere_in P s c : everywhere P s -> In (ISub c) (sc_items s) -> everywhere P c. Proof. intros []; auto. Qed.

Lemma child_runs depth s ims vars vals n child : runs depth s ims vars vals -> refs_ok s -> nested_imports s -> nth_error (sc_items s) n = Some (ISub child) ->
  exists ims' exs outs, nth_error vals n = Some (VSub outs) /\ mapO (resolve vals ims vars) (import_refs (sc_imports child)) = Some ims' /\
    scope_means (S depth) child ims' exs /\ leaves depth exs outs /\ length ims' = length (sc_imports child).
Proof.
  intros (Lv & [L V] & _) (R & _) N E. pose proof (nth_error_In _ _ E) as Hin. destruct (V _ _ E) as (i & e & o & Ev & I & M & F).
  rewrite imported_refs in I by (apply N; auto). exists i, e, o. split; auto. split.
  - rewrite <- I. apply mapO_ext. intros r Hr. symmetry. apply (resolve_before s). apply (R n (ISub child)); auto.
  - split; auto. split; auto. apply mapO_length' in I. rewrite I. apply refs_length. apply N; auto.
Qed.

Theorem sites_there s : everywhere refs_ok s -> everywhere nested_imports s -> forall depth ims exs, length ims = length (sc_imports s) ->
  scope_means depth s ims exs -> forall a, In a (sites s) -> exists c, site_means depth s ims (fst a) (snd a) c.
Proof.
  induction s as [s IH] using scope_ind'. intros R N depth ims exs Li M a Ha. apply means_runs in M as (vars & vals & Rn & _).
  rewrite sites_eq in Ha. apply in_app_iff in Ha as [Ha|Ha].
  - apply in_map_iff in Ha as (v & <- & Hv). apply in_seq in Hv. cbn [site_means fst snd]. destruct (runs_resolve depth s ims vars vals 0 (RVar v)) as (c & E); auto; [simpl; lia|].
    exists c. apply (runs_reading _ _ _ _ vars vals); auto. cbn [mapO]. rewrite E. auto.
  - apply in_items_sites in Ha as (i & it & E & Ha). destruct it as [nd|child]; simpl in Ha.
    + destruct Ha as [<-|[]]. cbn [site_means fst snd]. destruct (runs_resolve depth s ims vars vals (S i) (RLocal i)) as (c & Ec); auto; [simpl; eauto|].
      exists c. apply (runs_reading _ _ _ _ vars vals); auto. cbn [mapO]. rewrite Ec. auto.
    + apply in_map_iff in Ha as ([p x] & <- & Ha). pose proof (nth_error_In _ _ E) as Hin.
      destruct (child_runs _ _ _ _ _ _ _ Rn (everywhere_here _ _ R) (everywhere_here _ _ N) E) as (i' & e & o & _ & I & Mc & _ & Lc).
      destruct (IH child Hin (everywhere_in _ _ _ R Hin) (everywhere_in _ _ _ N Hin) _ _ _ Lc Mc _ Ha) as (g & Hg).
      destruct (at_times_total (left_time (S depth)) (linear_of [LLiftIter] (S depth) g)) as (l & El); [apply left_time_total|].
      exists l. cbn [site_means fst snd]. exists child, i', g, l. split; auto. split; [apply (runs_reading _ _ _ _ vars vals); auto|]. split; auto. split; auto. apply same_coll_refl.
Qed.
Lemma forall2_there {A B} (P : A -> B -> Prop) l : (forall a, In a l -> exists b, P a b) -> exists bs, Forall2 P l bs.
Proof.
  induction l as [|a l IH]; intros H; [exists []; auto|]. destruct (H a) as (b & Hb); [left; auto|]. destruct IH as (bs & Hbs); [intros; apply H; right; auto|].
  exists (b :: bs). auto.
Qed.
