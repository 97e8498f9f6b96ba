(** The passes of [optimize], and the whole of it. *)
From Verif Require Export Proofs.OptimizeP Proofs.NodeEqP.
From Verif Require Import Base.Collections Base.Arrays Base.Order.
Local Open Scope nat_scope.

Definition item_ops (it : Item) : nat := match it with IOp _ => 1 | ISub c => op_count c end.
Lemma op_count_sum s : op_count s = list_sum (map item_ops (sc_items s)).
Proof. destruct s as [nm ims vs its bs es]. simpl. induction its as [|[n|c] its IH]; simpl; auto. Qed.
Definition live_count (dead : list bool) : nat := rank dead (length dead).
Lemma live_count_upd dead i : live dead i -> S (live_count (upd dead i true)) = live_count dead.
Proof.
  unfold live, live_count. rewrite length_upd. revert i. induction dead as [|d dead IH]; intros [|i] E; simpl in *; try discriminate.
  - injection E as ->. auto.
  - rewrite <- (IH i E). lia.
Qed.
Definition same_body (c c' : Scope) : Prop :=
  sc_name c' = sc_name c /\ sc_vars c' = sc_vars c /\ sc_items c' = sc_items c /\ sc_binds c' = sc_binds c /\ sc_exports c' = sc_exports c /\
  length (sc_imports c') = length (sc_imports c).
Lemma same_body_refl c : same_body c c. Proof. repeat split. Qed.
Lemma same_body_trans a b c : same_body a b -> same_body b c -> same_body a c.
Proof. unfold same_body. intuition congruence. Qed.

Record kept (s : Scope) (dead : list bool) (s' : Scope) (dead' : list bool) : Prop := {
  k_ok : live_ok s' dead';
  k_tame : tame s';
  k_ops : map item_ops (sc_items s') = map item_ops (sc_items s);
  k_name : sc_name s' = sc_name s;
  k_imports : sc_imports s' = sc_imports s;
  k_vars : sc_vars s' = sc_vars s;
  k_binds : map bi_var (sc_binds s') = map bi_var (sc_binds s);
  k_exports : map ex_name (sc_exports s') = map ex_name (sc_exports s);
  k_subs : forall c', In (ISub c') (sc_items s') -> exists c, In (ISub c) (sc_items s) /\ same_body c c';
  k_sol : forall depth ims ex, sol depth s dead ims ex <-> sol depth s' dead' ims ex;
  k_live : live_count dead' <= live_count dead
}.
Lemma kept_refl s dead : live_ok s dead -> tame s -> kept s dead s dead.
Proof. intros H T. split; auto; try tauto. intros c Hc. exists c. split; auto. apply same_body_refl. Qed.
Lemma kept_trans s1 d1 s2 d2 s3 d3 : kept s1 d1 s2 d2 -> kept s2 d2 s3 d3 -> kept s1 d1 s3 d3.
Proof.
  intros A B. split; try (apply B); try (etransitivity; [apply B|apply A]).
  - intros c3 H3. destruct (k_subs _ _ _ _ B c3 H3) as (c2 & H2 & S2). destruct (k_subs _ _ _ _ A c2 H2) as (c1 & H1 & S1). exists c1. split; auto. eapply same_body_trans; eauto.
  - intros depth ims ex. rewrite (k_sol _ _ _ _ A). apply (k_sol _ _ _ _ B).
Qed.
Lemma kept_length s d s' d' : kept s d s' d' -> length (sc_items s') = length (sc_items s).
Proof. intros K. rewrite <- (map_length item_ops (sc_items s')), (k_ops _ _ _ _ K). apply map_length. Qed.

(** ** What each action does *)
Lemma item_each_ops f it it' : item_each f it = Some it' -> item_ops it' = item_ops it.
Proof.
  destruct it as [n|[nm is vs its bs es]]; simpl.
  - destruct (node_each f n); [|discriminate]. intros [= <-]. auto.
  - destruct (mapO (import_each f) is); [|discriminate]. intros [= <-]. auto.
Qed.
Lemma item_each_sub f it c' : item_each f it = Some (ISub c') -> exists c, it = ISub c /\ same_body c c'.
Proof.
  destruct it as [n|[nm is vs its bs es]]; simpl.
  - destruct (node_each f n); discriminate.
  - destruct (mapO (import_each f) is) as [is'|] eqn:E; [|discriminate]. intros [= <-]. eexists. split; [reflexivity|].
    unfold same_body; simpl. repeat split. apply (mapO_nth _ _ _ E).
Qed.
Lemma map_each {A B C} (f : A -> option B) (g : A -> C) (h : B -> C) l l' : mapO f l = Some l' -> (forall x y, f x = Some y -> h y = g x) -> map h l' = map g l.
Proof.
  intros M H. revert l' M. induction l as [|x l IH]; intros l' M; [injection M as <-; auto|].
  apply mapO_cons_inv in M as (y & r & -> & E & M). simpl. rewrite (IH r M), (H x y E). auto.
Qed.
Lemma each_kept f s s' : for_each_ref f s = Some s' ->
  map item_ops (sc_items s') = map item_ops (sc_items s) /\ sc_name s' = sc_name s /\ sc_imports s' = sc_imports s /\ sc_vars s' = sc_vars s /\
  map bi_var (sc_binds s') = map bi_var (sc_binds s) /\ map ex_name (sc_exports s') = map ex_name (sc_exports s) /\
  (forall c', In (ISub c') (sc_items s') -> exists c, In (ISub c) (sc_items s) /\ same_body c c').
Proof.
  intros E. apply for_each_inv in E as (Mi & Mb & Me & Nm & Im & Vs). split; [|split; [auto|split; [auto|split; [auto|split; [|split]]]]].
  - apply (map_each _ _ _ _ _ Mi). apply item_each_ops.
  - apply (map_each _ _ _ _ _ Mb). intros x y. unfold bind_each. destruct (f _); [|discriminate]. intros [= <-]. auto.
  - apply (map_each _ _ _ _ _ Me). intros x y. unfold export_each. destruct (f _); [|discriminate]. intros [= <-]. auto.
  - intros c' Hc. destruct (mapO_in _ _ _ _ Mi Hc) as (it & Hi & F). destruct (item_each_sub _ _ _ F) as (c & -> & S). eauto.
Qed.

Lemma redirect_kept s dead i j ni nj : live_ok s dead -> tame s -> nth_error (sc_items s) i = Some (IOp ni) -> nth_error (sc_items s) j = Some (IOp nj) ->
  live dead i -> live dead j -> j < i -> (delayed_here s (RLocal j) -> delayed_here s (RLocal i)) ->
  (forall depth look c1 c2, look (RLocal j) = Some c2 -> node_means depth look ni c1 -> node_means depth look nj c2 -> same_coll c1 c2) ->
  (forall depth look c, look (RLocal j) = Some c -> node_means depth look nj c -> node_means depth look ni c) ->
  exists s', redirect i j s dead = Some (s', upd dead i true) /\ for_each_ref (fun r => Some (redirect_ref i j r)) s = Some s' /\ kept s dead s' (upd dead i true).
Proof.
  intros Ok T Ei Ej Li Lj Hji Hd Same Give. destruct (redirect_some s dead i j Li) as (s' & E & F). exists s'. split; auto. split; auto.
  destruct (each_kept _ _ _ F) as (A1 & A2 & A3 & A4 & A5 & A6 & A7). split; auto.
  - eapply redirect_ok; eauto.
  - eapply redirect_tame; eauto.
  - intros depth ims ex. eapply (redirect_keeps s dead i j ni nj); eauto.
  - rewrite <- (live_count_upd dead i); auto.
Qed.

(** ** The passes *)
Section Pass.
Variable step : nat -> pass -> option pass.
Variable Inv : Scope -> list bool -> Prop.
Hypothesis Hstep : forall i s dead ch, live_ok s dead -> tame s -> Inv s dead -> i < length (sc_items s) -> exists s' dead' ch',
  step i (s, dead, ch) = Some (s', dead', ch') /\ kept s dead s' dead' /\ Inv s' dead' /\
  ((s' = s /\ dead' = dead /\ ch' = ch /\ forall c, step i (s, dead, c) = Some (s, dead, c)) \/ (ch' = true /\ live_count dead' < live_count dead)).
Lemma pass_spec is : forall s dead ch, live_ok s dead -> tame s -> Inv s dead -> Forall (fun i => i < length (sc_items s)) is -> exists s' dead' ch',
  for_items step is (s, dead, ch) = Some (s', dead', ch') /\ kept s dead s' dead' /\
  ((s' = s /\ dead' = dead /\ ch' = ch /\ forall i c, In i is -> step i (s, dead, c) = Some (s, dead, c)) \/ (ch' = true /\ live_count dead' < live_count dead)).
Proof.
  induction is as [|i is IH]; intros s dead ch Ok T In0 Fi.
  - exists s, dead, ch. split; auto. split; [apply kept_refl; auto|]. left. split; auto. split; auto. split; auto. intros i c [].
  - inversion Fi as [|? ? Hi Fr]; subst. destruct (Hstep i s dead ch Ok T In0 Hi) as (s1 & d1 & ch1 & E1 & K1 & I1 & C1).
    destruct (IH s1 d1 ch1 (k_ok _ _ _ _ K1) (k_tame _ _ _ _ K1) I1) as (s2 & d2 & ch2 & E2 & K2 & C2).
    { rewrite (kept_length _ _ _ _ K1). auto. }
    exists s2, d2, ch2. cbn [for_items]. rewrite E1. split; auto. split; [eapply kept_trans; eauto|].
    pose proof (k_live _ _ _ _ K1) as Lv1. pose proof (k_live _ _ _ _ K2) as Lv2.
    destruct C1 as [(-> & -> & -> & C1)|(-> & C1)]; destruct C2 as [(-> & -> & -> & C2)|(-> & C2)]; try (right; split; [auto|lia]).
    left. split; auto. split; auto. split; auto. intros k c [<-|Hk]; auto.
Qed.
End Pass.

Lemma collapse_step_spec i s dead ch : live_ok s dead -> tame s -> i < length (sc_items s) -> exists s' dead' ch',
  collapse_step i (s, dead, ch) = Some (s', dead', ch') /\ kept s dead s' dead' /\
  ((s' = s /\ dead' = dead /\ ch' = ch /\ forall c, collapse_step i (s, dead, c) = Some (s, dead, c)) \/ (ch' = true /\ live_count dead' < live_count dead)).
Proof.
  intros Ok T Hi. pose proof Ok as (Len & Ri & _).
  assert (No : (forall c, collapse_step i (s, dead, c) = Some (s, dead, c)) -> exists s' dead' ch',
    collapse_step i (s, dead, ch) = Some (s', dead', ch') /\ kept s dead s' dead' /\
    ((s' = s /\ dead' = dead /\ ch' = ch /\ forall c, collapse_step i (s, dead, c) = Some (s, dead, c)) \/ (ch' = true /\ live_count dead' < live_count dead))).
  { intros H. exists s, dead, ch. split; auto. split; [apply kept_refl; auto|]. left. auto. }
  unfold collapse_step in *. destruct (nth_error dead i) as [d|] eqn:Ed; [|apply nth_error_None in Ed; lia]. destruct d; auto.
  destruct (nth_error (sc_items s) i) as [[n|c]|] eqn:Ei; auto. destruct n as [| |r| | |]; auto. destruct r as [j| | |]; auto.
  destruct (Ri i _ (RLocal j) Ei Ed ltac:(simpl; auto)) as ((Hji & nj & Ej) & Tl). pose proof (Tl j eq_refl) as Lj. unfold live in Lj. rewrite Lj in *.
  cbn [negb andb] in *. destruct (arranged (nth_error (sc_items s) j)) eqn:Ea; auto. clear No.
  rewrite Ej in Ea. simpl in Ea.
  destruct (redirect_kept s dead i j (NArrange (RLocal j)) nj) as (s' & E & _ & K); auto.
  - intros Hd. exfalso. inversion Hd as [k r ops Ek|k r ops Ek]; subst; rewrite Ej in Ek; injection Ek as ->; discriminate.
  - intros depth look c1 c2 E2 (c & E & Hc) _. rewrite E2 in E. injection E as <-. auto.
  - intros depth look c E2 _. exists c. split; auto. apply same_coll_refl.
  - exists s', (upd dead i true), true. rewrite E. split; auto. split; auto. right. split; auto. rewrite <- (live_count_upd dead i); auto.
Qed.

Definition counted (counts : list nat) (s : Scope) (dead : list bool) : Prop :=
  length counts = length (sc_items s) /\ forall m, live dead m -> nth_error counts m = Some (total_uses s dead m).
Lemma fuse_step_spec counts i s dead ch : live_ok s dead -> tame s -> counted counts s dead -> i < length (sc_items s) -> exists s' dead' ch',
  fuse_step counts i (s, dead, ch) = Some (s', dead', ch') /\ kept s dead s' dead' /\ counted counts s' dead' /\
  ((s' = s /\ dead' = dead /\ ch' = ch /\ forall c, fuse_step counts i (s, dead, c) = Some (s, dead, c)) \/ (ch' = true /\ live_count dead' < live_count dead)).
Proof.
  intros Ok T Cn Hi. pose proof Ok as (Len & Ri & _).
  assert (No : (forall c, fuse_step counts i (s, dead, c) = Some (s, dead, c)) -> exists s' dead' ch',
    fuse_step counts i (s, dead, ch) = Some (s', dead', ch') /\ kept s dead s' dead' /\ counted counts s' dead' /\
    ((s' = s /\ dead' = dead /\ ch' = ch /\ forall c, fuse_step counts i (s, dead, c) = Some (s, dead, c)) \/ (ch' = true /\ live_count dead' < live_count dead))).
  { intros H. exists s, dead, ch. split; auto. split; [apply kept_refl; auto|]. split; auto. }
  unfold fuse_step in *. destruct (nth_error dead i) as [d|] eqn:Ed; [|apply nth_error_None in Ed; lia]. destruct d; auto.
  destruct (nth_error (sc_items s) i) as [[n|c]|] eqn:Ei; auto. destruct n as [r ops| | | | |]; auto. destruct r as [j| | |]; auto.
  destruct (Ri i _ (RLocal j) Ei Ed ltac:(simpl; auto)) as ((Hji & nj & Ej) & Tl). pose proof (Tl j eq_refl) as Lj. unfold live in Lj. rewrite Lj in *.
  destruct Cn as (Lc & Cn). rewrite (Cn j Lj) in *. destruct (Nat.eqb_spec (total_uses s dead j) 1) as [U|U]; cbn [negb] in *; auto.
  rewrite Ej in *. destruct nj as [inner iops| | | | |]; auto. clear No.
  rewrite put_some by auto. rewrite put_some by (rewrite Len; lia). eexists _, _, _. split; [reflexivity|].
  pose proof (single_use s dead i j ops Ei Ed U) as Only.
  split; [split|split].
  - apply (fuse_ok s dead i j inner ops iops); auto.
  - apply (fuse_tame s i j); auto.
  - simpl. clear -Ei. revert Ei. generalize (sc_items s) as l. induction i as [|i IH]; intros [|x l]; simpl; try discriminate; [intros [= ->]; auto|]. intros E. f_equal. apply IH; auto.
  - reflexivity.
  - reflexivity.
  - reflexivity.
  - reflexivity.
  - reflexivity.
  - simpl. intros c' Hc. apply In_nth_error in Hc as (k & Ek). destruct (Nat.eq_dec i k) as [->|Hk].
    + rewrite nth_upd_eq in Ek by auto. discriminate.
    + rewrite nth_upd_ne in Ek by auto. exists c'. split; [eapply nth_error_In; eauto|apply same_body_refl].
  - intros depth ims ex. apply (fuse_keeps s dead i j inner ops iops); auto. intros D1 D2. apply (T i _ _ Ei D2). eapply DelayedNow; eauto.
  - rewrite <- (live_count_upd dead j Lj). auto.
  - split; [simpl; rewrite length_upd; auto|]. intros m Lm. apply live_upd in Lm as (Lm & Hm). rewrite Cn by auto. f_equal. symmetry.
    apply (fuse_uses s dead i j inner ops iops m); auto. lia.
  - right. split; auto. rewrite <- (live_count_upd dead j Lj). lia.
Qed.

(** ** Deduplication *)
Definition dup (s : Scope) (dead : list bool) (p : nat * nat) : Prop :=
  snd p < fst p /\ live dead (fst p) /\ live dead (snd p) /\ exists n, nth_error (sc_items s) (fst p) = Some (IOp n) /\ nth_error (sc_items s) (snd p) = Some (IOp n).
Lemma redirect_all_spec rs : forall s dead, live_ok s dead -> tame s -> Forall (dup s dead) rs -> NoDup (map fst rs) -> Forall (fun p => ~ In (snd p) (map fst rs)) rs ->
  exists s' dead', redirect_all rs s dead = Some (s', dead') /\ kept s dead s' dead' /\ live_count dead' + length rs <= live_count dead.
Proof.
  induction rs as [|[i j] rs IH]; intros s dead Ok T D ND NI.
  - exists s, dead. split; auto. split; [apply kept_refl; auto|]. simpl; lia.
  - inversion D as [|? ? (Hji & Li & Lj & n & Ei & Ej) Dr]; subst. simpl in Hji, Li, Lj, Ei, Ej. simpl in ND. inversion ND as [|? ? Ni NDr]; subst.
    destruct (redirect_kept s dead i j n n) as (s1 & E1 & F1 & K1); auto.
    + intros Hd. inversion Hd as [k r ops Ek|k r ops Ek]; subst; rewrite Ej in Ek; injection Ek as ->; [eapply DelayedNow|eapply DelayedBefore]; eauto.
    + intros depth look c1 c2 _ M1 M2. apply agree_same_coll. eapply node_agree; [apply down_always| |exact M1|exact M2].
      intros r a b _ Ea Eb. rewrite Ea in Eb. injection Eb as <-. apply agree_refl.
    + destruct (IH s1 (upd dead i true)) as (s2 & d2 & E2 & K2 & L2); auto; try (apply K1).
      * apply for_each_inv in F1 as (Mi & _). destruct (mapO_nth _ _ _ Mi) as (_ & N1 & _).
        apply Forall_forall. intros [a b] Hab. rewrite Forall_forall in Dr, NI. destruct (Dr _ Hab) as (Hba & La & Lb & m & Ea & Eb). simpl in *.
        assert (a <> i). { intros ->. apply Ni. apply in_map_iff. exists (i, b). auto. }
        assert (b <> i). { intros ->. apply (NI (a, i)); auto. }
        split; auto. split; [apply live_upd; auto|]. split; [apply live_upd; auto|]. simpl.
        destruct (N1 _ _ Ea) as (x & Ex & Fx). destruct (N1 _ _ Eb) as (y & Ey & Fy). simpl in Fx, Fy.
        match type of Fx with context [node_each ?g m] => destruct (node_each g m) as [m'|]; [|discriminate] end.
        injection Fx as <-. injection Fy as <-. exists m'. auto.
      * apply Forall_forall. intros p Hp Hi. rewrite Forall_forall in NI. apply (NI p); [right; auto|]. right; auto.
      * exists s2, d2. cbn [redirect_all]. rewrite E1. split; auto. split; [eapply kept_trans; eauto|]. simpl. rewrite <- (live_count_upd dead i Li). lia.
Qed.

Lemma find_seen_spec n seen : match find_seen n seen with Some k => In (n, k) seen | None => forall k, ~ In (n, k) seen end.
Proof.
  induction seen as [|[m i] seen IH]; simpl; [intros k []|]. destruct (node_eqb n m) eqn:E.
  - apply node_eqb_spec in E. subst; auto.
  - destruct (find_seen n seen); [auto|]. intros k [Q|Q]; [|eapply IH; eauto]. injection Q as -> _.
    assert (node_eqb n n = true) by (apply node_eqb_spec; auto). congruence.
Qed.
Lemma dedup_scan_spec items dead : forall pre dpre seen, length dead = length items -> length dpre = length pre ->
  (forall m k, In (m, k) seen -> nth_error pre k = Some (IOp m) /\ live dpre k) ->
  exists rs, dedup_scan items dead (length pre) seen = Some rs /\
    Forall (fun p => length pre <= fst p /\ snd p < fst p /\ live (dpre ++ dead) (fst p) /\ live (dpre ++ dead) (snd p) /\
       exists n, nth_error (pre ++ items) (fst p) = Some (IOp n) /\ nth_error (pre ++ items) (snd p) = Some (IOp n)) rs /\
    NoDup (map fst rs) /\ Forall (fun p => In (snd p) (map snd seen) \/ (length pre <= snd p /\ ~ In (snd p) (map fst rs))) rs /\
    (rs = [] -> forall a n, live (dpre ++ dead) a -> length pre <= a -> nth_error (pre ++ items) a = Some (IOp n) ->
       (forall k, ~ In (n, k) seen) /\ forall b, length pre <= b -> live (dpre ++ dead) b -> nth_error (pre ++ items) b = Some (IOp n) -> a = b).
Proof.
  unfold live. revert dead. induction items as [|it items IH]; intros [|d dead] pre dpre seen L Lp Hs; try discriminate.
  - exists []. split; auto. split; auto. split; [constructor|]. split; auto. intros _ a n _ Ha Ea.
    exfalso. rewrite app_nil_r in Ea. assert (a < length pre) by (apply nth_error_Some; congruence). lia.
  - assert (Step : forall seen', (forall m k, In (m, k) seen' -> nth_error (pre ++ [it]) k = Some (IOp m) /\ nth_error (dpre ++ [d]) k = Some false) ->
      exists rs, dedup_scan items dead (S (length pre)) seen' = Some rs /\
       Forall (fun p => S (length pre) <= fst p /\ snd p < fst p /\ nth_error (dpre ++ d :: dead) (fst p) = Some false /\ nth_error (dpre ++ d :: dead) (snd p) = Some false /\
         exists n, nth_error (pre ++ it :: items) (fst p) = Some (IOp n) /\ nth_error (pre ++ it :: items) (snd p) = Some (IOp n)) rs /\
       NoDup (map fst rs) /\ Forall (fun p => In (snd p) (map snd seen') \/ (S (length pre) <= snd p /\ ~ In (snd p) (map fst rs))) rs /\
       (rs = [] -> forall a n, nth_error (dpre ++ d :: dead) a = Some false -> S (length pre) <= a -> nth_error (pre ++ it :: items) a = Some (IOp n) ->
         (forall k, ~ In (n, k) seen') /\ forall b, S (length pre) <= b -> nth_error (dpre ++ d :: dead) b = Some false -> nth_error (pre ++ it :: items) b = Some (IOp n) -> a = b)).
    { intros seen' Hs'. specialize (IH dead (pre ++ [it]) (dpre ++ [d]) seen'). rewrite !app_length in IH. simpl in IH. rewrite !Nat.add_1_r in IH.
      replace ((dpre ++ [d]) ++ dead) with (dpre ++ d :: dead) in IH by (rewrite <- app_assoc; auto).
      replace ((pre ++ [it]) ++ items) with (pre ++ it :: items) in IH by (rewrite <- app_assoc; auto).
      apply IH; [simpl in L; lia|lia|]. auto. }
    assert (Old : forall m k, In (m, k) seen -> nth_error (pre ++ [it]) k = Some (IOp m) /\ nth_error (dpre ++ [d]) k = Some false).
    { intros m k Hk. destruct (Hs m k Hk) as (A & B). split; rewrite nth_error_app1; auto; apply nth_error_Some; congruence. }
    assert (Here : nth_error (pre ++ it :: items) (length pre) = Some it) by (rewrite nth_error_app2, Nat.sub_diag; auto).
    assert (HereD : nth_error (dpre ++ d :: dead) (length pre) = Some d) by (rewrite <- Lp, nth_error_app2, Nat.sub_diag; auto).
    assert (Skip : d = true \/ (exists c, it = ISub c) -> exists rs, dedup_scan items dead (S (length pre)) seen = Some rs /\
      Forall (fun p => length pre <= fst p /\ snd p < fst p /\ nth_error (dpre ++ d :: dead) (fst p) = Some false /\ nth_error (dpre ++ d :: dead) (snd p) = Some false /\
         exists n, nth_error (pre ++ it :: items) (fst p) = Some (IOp n) /\ nth_error (pre ++ it :: items) (snd p) = Some (IOp n)) rs /\
       NoDup (map fst rs) /\ Forall (fun p => In (snd p) (map snd seen) \/ (length pre <= snd p /\ ~ In (snd p) (map fst rs))) rs /\
       (rs = [] -> forall a n, nth_error (dpre ++ d :: dead) a = Some false -> length pre <= a -> nth_error (pre ++ it :: items) a = Some (IOp n) ->
         (forall k, ~ In (n, k) seen) /\ forall b, length pre <= b -> nth_error (dpre ++ d :: dead) b = Some false -> nth_error (pre ++ it :: items) b = Some (IOp n) -> a = b)).
    { intros Hskip. destruct (Step seen Old) as (rs & E & F & ND & NI & Em). exists rs. split; auto. split; [|split; [auto|split]].
      - eapply Forall_impl; [|exact F]. intros p (Q1 & Q2); split; [lia|exact Q2].
      - eapply Forall_impl; [|exact NI]. intros p [Q|(Q1 & Q2)]; [left; auto|right; split; [lia|auto]].
      - intros Q a n La Ha Ea.
        assert (Ne : forall x, nth_error (dpre ++ d :: dead) x = Some false -> nth_error (pre ++ it :: items) x = Some (IOp n) -> x <> length pre).
        { intros x Lx Ex ->. rewrite Here in Ex. rewrite HereD in Lx. injection Ex as ->. destruct Hskip as [->|(c & ?)]; discriminate. }
        pose proof (Ne a La Ea) as Na. destruct (Em Q a n La ltac:(lia) Ea) as (E1 & E2). split; auto. intros b Hb Lb Eb. pose proof (Ne b Lb Eb). apply E2; auto. lia. }
    cbn [dedup_scan]. destruct d; [apply Skip; auto|]. destruct it as [n|c]; [|apply Skip; eauto]. clear Skip.
    pose proof (find_seen_spec n seen) as Fs. destruct (find_seen n seen) as [first|].
    + destruct (Step seen Old) as (rs & E & F & ND & NI & _). rewrite E. exists ((length pre, first) :: rs). split; auto.
      destruct (Hs n first Fs) as (Hf & Lf). assert (Bf : first < length pre) by (apply nth_error_Some; congruence).
      split; [|split; [|split]].
      * constructor; [|eapply Forall_impl; [|exact F]; intros p (Q1 & Q2); split; [lia|exact Q2]]. simpl. split; [lia|]. split; [lia|]. split; auto.
        split; [rewrite nth_error_app1; auto; lia|]. exists n. split; auto. rewrite nth_error_app1; auto.
      * simpl. constructor; auto. intros Hi. apply in_map_iff in Hi as ([a b] & Ea & Hi). simpl in Ea. subst a. rewrite Forall_forall in F. destruct (F _ Hi) as (Q & _). simpl in Q. lia.
      * assert (Sf : In first (map snd seen)) by (apply in_map_iff; exists (n, first); auto).
        constructor; [left; auto|]. apply Forall_forall. intros p Hp. rewrite Forall_forall in NI. destruct (NI p Hp) as [Q|(Q1 & Q2)]; [auto|].
        right. split; [lia|]. simpl. intros [Q|Q]; [lia|auto].
      * intros Q. discriminate.
    + destruct (Step ((n, length pre) :: seen)) as (rs & E & F & ND & NI & Em).
      { intros m k [[= <- <-]|Hk]; [|auto]. split; [rewrite nth_error_app2, Nat.sub_diag; auto|]. rewrite <- Lp, nth_error_app2, Nat.sub_diag; auto. }
      exists rs. split; auto. split; [eapply Forall_impl; [|exact F]; intros p (Q1 & Q2); split; [lia|exact Q2]|]. split; auto. split.
      * apply Forall_forall. intros p Hp. rewrite Forall_forall in NI, F. destruct (NI p Hp) as [Q|(Q1 & Q2)]; [|right; split; [lia|auto]].
        simpl in Q. destruct Q as [Q|Q]; [|auto]. right. rewrite <- Q. split; auto. intros Hi. apply in_map_iff in Hi as (q & Eq & Hq). destruct (F q Hq) as (B & _). lia.
      * intros Q a m La Ha Ea. destruct (Nat.eq_dec a (length pre)) as [->|Na].
        -- rewrite Here in Ea. injection Ea as ->. split; auto. intros b Hb Lb Eb. destruct (Nat.eq_dec b (length pre)) as [->|Nb]; auto.
           exfalso. destruct (Em Q b m Lb ltac:(lia) Eb) as (E1 & _). apply (E1 (length pre)). left; auto.
        -- destruct (Em Q a m La ltac:(lia) Ea) as (E1 & E2). split; [intros k Hk; apply (E1 k); right; auto|].
           intros b Hb Lb Eb. destruct (Nat.eq_dec b (length pre)) as [->|Nb]; [|apply E2; auto; lia].
           exfalso. rewrite Here in Eb. injection Eb as ->. apply (E1 (length pre)). left; auto.
Qed.
Lemma dedup_spec s dead : live_ok s dead -> tame s -> exists s' dead' ch, dedup s dead = Some (s', dead', ch) /\ kept s dead s' dead' /\
  ((s' = s /\ dead' = dead /\ ch = false /\ forall a b n, live dead a -> live dead b -> nth_error (sc_items s) a = Some (IOp n) -> nth_error (sc_items s) b = Some (IOp n) -> a = b) \/
   (ch = true /\ live_count dead' < live_count dead)).
Proof.
  intros Ok T. pose proof Ok as (Len & _). unfold dedup.
  destruct (dedup_scan_spec (sc_items s) dead [] [] []) as (rs & E & F & ND & NI & Em); auto; [intros m k []|]. simpl in E. rewrite E.
  destruct (redirect_all_spec rs s dead Ok T) as (s' & dead' & E' & K & L); auto.
  { eapply Forall_impl; [|exact F]. intros p (_ & Q). exact Q. }
  { eapply Forall_impl; [|exact NI]. intros p [[]|(_ & Q)]. exact Q. }
  destruct rs as [|p rs].
  - exists s, dead, false. simpl. split; auto. split; [apply kept_refl; auto|]. left. split; auto. split; auto. split; auto.
    intros a b n La Lb Ea Eb. destruct (Em eq_refl a n La ltac:(simpl; lia) Ea) as (_ & Q). apply Q; auto. simpl; lia.
  - exists s', dead', true. rewrite E'. split; auto. split; auto. right. split; auto. simpl in L. lia.
Qed.

(** Nothing left to do among what is live. *)
Definition settled_live (s : Scope) (dead : list bool) : Prop :=
  (forall i j, live dead i -> nth_error (sc_items s) i = Some (IOp (NArrange (RLocal j))) -> arranged (nth_error (sc_items s) j) = false) /\
  (forall i j ops r iops, live dead i -> nth_error (sc_items s) i = Some (IOp (NLinear (RLocal j) ops)) ->
     nth_error (sc_items s) j = Some (IOp (NLinear r iops)) -> total_uses s dead j <> 1) /\
  (forall a b n, live dead a -> live dead b -> nth_error (sc_items s) a = Some (IOp n) -> nth_error (sc_items s) b = Some (IOp n) -> a = b).

Lemma bound_lists s : Forall (fun i => i < length (sc_items s)) (seq 0 (length (sc_items s))).
Proof. apply Forall_forall. intros i Hi. apply in_seq in Hi. lia. Qed.
Lemma loop_spec fuel : forall s dead, live_ok s dead -> tame s -> live_count dead < fuel -> exists s' dead',
  optimize_loop fuel s dead = Some (s', dead') /\ kept s dead s' dead' /\ settled_live s' dead'.
Proof.
  induction fuel as [|fuel IH]; intros s dead Ok T Hf; [lia|]. cbn [optimize_loop].
  destruct (pass_spec collapse_step (fun _ _ => True)) with (is := seq 0 (length (sc_items s))) (s := s) (dead := dead) (ch := false)
    as (s1 & d1 & c1 & E1 & K1 & C1); auto using bound_lists.
  { intros i s0 d0 ch Ok0 T0 _ Hi. destruct (collapse_step_spec i s0 d0 ch Ok0 T0 Hi) as (a & b & c & A & B & C). exists a, b, c. auto. }
  unfold collapse_arranges. rewrite E1. pose proof (k_ok _ _ _ _ K1) as Ok1. pose proof (k_tame _ _ _ _ K1) as T1.
  destruct (use_counts_spec s1 d1 Ok1) as (counts & Ec & Lc & Nc).
  assert (Cn : counted counts s1 d1). { split; auto. intros m Lm. apply Nc. apply live_bound in Lm. destruct Ok1 as (Q & _). lia. }
  destruct (pass_spec (fuse_step counts) (counted counts)) with (is := seq 0 (length (sc_items s1))) (s := s1) (dead := d1) (ch := false)
    as (s2 & d2 & c2 & E2 & K2 & C2); auto using bound_lists.
  { intros i s0 d0 ch Ok0 T0 Cn0 Hi. apply fuse_step_spec; auto. }
  unfold fuse_linear. rewrite Ec, E2. pose proof (k_ok _ _ _ _ K2) as Ok2. pose proof (k_tame _ _ _ _ K2) as T2.
  destruct (dedup_spec s2 d2 Ok2 T2) as (s3 & d3 & c3 & E3 & K3 & C3). rewrite E3.
  pose proof (k_live _ _ _ _ K1) as L1. pose proof (k_live _ _ _ _ K2) as L2. pose proof (k_live _ _ _ _ K3) as L3.
  pose proof (kept_trans _ _ _ _ _ _ K1 (kept_trans _ _ _ _ _ _ K2 K3)) as K.
  assert (Again : live_count d3 < live_count dead -> exists s' dead', optimize_loop fuel s3 d3 = Some (s', dead') /\ kept s dead s' dead' /\ settled_live s' dead').
  { intros Hl. destruct (IH s3 d3 (k_ok _ _ _ _ K3) (k_tame _ _ _ _ K3) ltac:(lia)) as (s' & d' & E' & K' & S'). exists s', d'. split; auto. split; auto.
    eapply kept_trans; eauto. }
  destruct C1 as [(-> & -> & -> & C1)|(-> & C1)]; [|apply Again; lia]. destruct C2 as [(-> & -> & -> & C2)|(-> & C2)]; [|apply Again; lia].
  destruct C3 as [(-> & -> & -> & C3)|(-> & C3)]; [|simpl; apply Again; lia]. cbn [orb]. clear Again.
  exists s, dead. split; auto. split; auto. destruct Ok as (Len & Ri & Rb & Re). split; [|split; auto].
  - intros i j Li Ei. assert (Bi : i < length (sc_items s)) by (apply nth_error_Some; congruence).
    specialize (C1 i false ltac:(apply in_seq; lia)). unfold collapse_step in C1. unfold live in Li. rewrite Li, Ei in C1.
    destruct (Ri i _ (RLocal j) Ei Li ltac:(simpl; auto)) as ((Hji & nj & Ej) & Tl). pose proof (Tl j eq_refl) as Lj. unfold live in Lj. rewrite Lj in C1.
    destruct (arranged (nth_error (sc_items s) j)); auto. simpl in C1. destruct (redirect i j s dead) as [[x y]|]; discriminate.
  - intros i j ops r iops Li Ei Ej U. assert (Bi : i < length (sc_items s)) by (apply nth_error_Some; congruence).
    specialize (C2 i false ltac:(apply in_seq; lia)). unfold fuse_step in C2. unfold live in Li. rewrite Li, Ei in C2.
    destruct (Ri i _ (RLocal j) Ei Li ltac:(simpl; auto)) as ((Hji & nj & _) & Tl). pose proof (Tl j eq_refl) as Lj. pose proof Lj as Lj'. unfold live in Lj. rewrite Lj in C2.
    destruct Cn as (_ & Cn). rewrite (Cn j Lj'), U, Ej in C2. simpl in C2. rewrite !put_some in C2 by lia. discriminate.
Qed.

(** ** Compacting what is settled *)
Lemma node_each_inj f a b n : (forall r r', In r (node_refs a) -> In r' (node_refs b) -> f r = f r' -> r = r') ->
  node_each f a = Some n -> node_each f b = Some n -> a = b.
Proof.
  intros Inj Ha Hb. pose proof (node_each_refs _ _ _ Ha) as Ra. pose proof (node_each_refs _ _ _ Hb) as Rb.
  assert (Er : node_refs a = node_refs b).
  { revert Ra Rb. generalize (node_refs n) as ns. revert Inj. generalize (node_refs a) as ra, (node_refs b) as rb. clear.
    induction ra as [|x ra IH]; intros rb Inj ns Ra Rb.
    - injection Ra as <-. destruct rb as [|y rb]; auto. apply mapO_cons_inv in Rb as (? & ? & ? & _). discriminate.
    - apply mapO_cons_inv in Ra as (u & l & -> & Ex & Mx). destruct rb as [|y rb]; [discriminate|].
      apply mapO_cons_inv in Rb as (u' & l' & Q & Ey & My). injection Q as <- <-. f_equal.
      + apply Inj; [left; auto..|congruence].
      + apply (IH rb) with (ns := l); [|exact Mx|exact My]. intros r r' Hr Hr'. apply Inj; right; auto. }
  destruct a as [r ops|rs|r|l r p|r red|r lab], b as [r' ops'|rs'|r'|l' r' p'|r' red'|r' lab']; simpl in *;
    repeat match goal with H : context [match ?e with Some _ => _ | None => _ end] |- _ => destruct e; try discriminate H end;
    injection Ha as <-; try discriminate Hb; injection Hb; intros; subst; try (injection Er; intros); congruence.
Qed.

Lemma mapO_app {A B} (f : A -> option B) l1 l2 r1 r2 : mapO f l1 = Some r1 -> mapO f l2 = Some r2 -> mapO f (l1 ++ l2) = Some (r1 ++ r2).
Proof.
  revert r1. induction l1 as [|x l1 IH]; intros r1 E1 E2; [injection E1 as <-; auto|].
  apply mapO_cons_inv in E1 as (y & r & -> & Ex & M). simpl. rewrite Ex, (IH r); auto.
Qed.
Lemma import_refs_each f is is' : mapO (import_each f) is = Some is' -> mapO f (import_refs is) = Some (import_refs is').
Proof.
  revert is'. induction is as [|im is IH]; intros is' M; [injection M as <-; auto|].
  apply mapO_cons_inv in M as (y & r & -> & E & M). unfold import_refs. simpl. apply mapO_app; [|apply IH; auto].
  unfold import_each in E. destruct (im_from im) as [x| |] eqn:Ex.
  - destruct (f x) as [x'|] eqn:Ef; [|discriminate]. injection E as <-. simpl. rewrite Ef. auto.
  - injection E as <-. rewrite Ex. auto.
  - injection E as <-. rewrite Ex. auto.
Qed.
Lemma item_refs_each f it it' : item_each f it = Some it' -> mapO f (item_refs it) = Some (item_refs it').
Proof.
  destruct it as [n|[nm is vs its bs es]]; simpl.
  - destruct (node_each f n) as [n'|] eqn:E; [|discriminate]. intros [= <-]. simpl. apply node_each_refs; auto.
  - destruct (mapO (import_each f) is) as [is'|] eqn:E; [|discriminate]. intros [= <-]. simpl. apply import_refs_each; auto.
Qed.
Lemma uses_each f m m' rs rs' : mapO f rs = Some rs' -> (forall r r', In r rs -> f r = Some r' -> names m' r' = names m r) -> uses m' rs' = uses m rs.
Proof.
  revert rs'. induction rs as [|r rs IH]; intros rs' M H; [injection M as <-; auto|].
  apply mapO_cons_inv in M as (y & l & -> & E & M). unfold uses in *. simpl. rewrite (H r y) by (auto; left; auto).
  destruct (names m r); simpl; rewrite (IH l M); auto; intros; apply H; auto; right; auto.
Qed.
Lemma retain_uses m items dead items0 : retain_live items dead = Some items0 -> item_uses m items dead = list_sum (map (fun it => uses m (item_refs it)) items0).
Proof.
  unfold item_uses. revert dead items0. induction items as [|it items IH]; intros [|d dead] items0; simpl; try discriminate; [intros [= <-]; auto..|].
  destruct (retain_live items dead) as [r|] eqn:E; [|discriminate]. intros [= <-]. rewrite (IH dead r E). unfold contrib at 1; simpl. destruct d; auto.
Qed.
Lemma retain_ops items dead items0 : retain_live items dead = Some items0 -> list_sum (map item_ops items0) <= list_sum (map item_ops items).
Proof.
  revert dead items0. induction items as [|it items IH]; intros [|d dead] items0; simpl; try discriminate; [intros [= <-]; auto..|].
  destruct (retain_live items dead) as [r|] eqn:E; [|discriminate]. intros [= <-]. specialize (IH dead r E). destruct d; simpl; lia.
Qed.
Lemma uses_flat m items : uses m (flat_map item_refs items) = list_sum (map (fun it => uses m (item_refs it)) items).
Proof. induction items as [|it items IH]; simpl; auto. rewrite uses_app, IH. auto. Qed.

Lemma compact_settled s dead s' : live_ok s dead -> settled_live s dead -> compact s dead = Some s' -> settled s' /\ op_count s' <= op_count s /\
  (forall c', In (ISub c') (sc_items s') -> exists c, In (ISub c) (sc_items s) /\ same_body c c') /\ map ex_name (sc_exports s') = map ex_name (sc_exports s).
Proof.
  intros Ok (S1 & S2 & S3) E. destruct (compact_some s dead Ok) as (s0 & E0 & _ & _ & _ & _ & _ & Mb & Me & K1 & K2 & _). rewrite E in E0. injection E0 as <-.
  pose proof Ok as (Len & Ri & Rb & Re). set (f := remap_ref (remap_of dead 0)) in *.
  assert (Back : forall r r', target_live dead r -> f r = Some r' -> forall j', r' = RLocal j' -> exists j, r = RLocal j /\ live dead j /\ rank dead j = j').
  { intros r r' T F j' ->. unfold f in F. rewrite remap_live in F by auto. destruct r as [k| | |]; try discriminate. injection F as <-. exists k. auto. }
  assert (Inj : forall r r', target_live dead r -> target_live dead r' -> f r = f r' -> r = r').
  { intros r r' T T' Q. unfold f in Q. rewrite !remap_live in Q by auto. injection Q as Q.
    destruct r as [k|k|k|k l], r' as [k'|k'|k'|k' l']; try discriminate; injection Q; intros; f_equal; auto;
      apply (rank_inj dead); auto. }
  assert (U : forall j, live dead j -> used s' (rank dead j) = total_uses s dead j).
  { intros j Lj. assert (Nm : forall r r', target_live dead r -> f r = Some r' -> names (rank dead j) r' = names j r).
    { intros r r' T F. unfold f in F. rewrite remap_live in F by auto. injection F as <-.
      assert (Q : forall k, live dead k -> (rank dead k =? rank dead j) = (k =? j)).
      { intros k Lk. destruct (Nat.eqb_spec k j) as [->|H]; [apply Nat.eqb_refl|]. apply Nat.eqb_neq. intros Q. apply H. eapply rank_inj; eauto. }
      destruct r as [k|k|k|k l]; unfold names; simpl; auto. }
    assert (Eu : used s' (rank dead j) = uses (rank dead j) (all_refs s')).
    { unfold used, uses. f_equal. apply filter_ext. intros r. destruct r; auto. }
    rewrite Eu. unfold all_refs, total_uses. rewrite !uses_app, <- Nat.add_assoc. clear Eu. f_equal; [|f_equal].
    - unfold compact in E. destruct (retain_live (sc_items s) dead) as [items0|] eqn:Er; [|discriminate]. apply for_each_inv in E as (Mi & _). simpl in Mi.
      rewrite (retain_uses _ _ _ _ Er), uses_flat. f_equal. fold f in Mi.
      destruct (retain_spec (sc_items s) dead (eq_sym Len)) as (ys & Er' & _ & _ & H2). rewrite Er in Er'. injection Er' as <-.
      assert (Tl : forall it r, In it items0 -> In r (item_refs it) -> target_live dead r).
      { intros it r Hi Hr. apply In_nth_error in Hi as (k & Ek). destruct (H2 k it Ek) as (n & A1 & _ & A3). apply (Ri n it r); auto. }
      clear -Mi Nm Tl. revert Mi Tl. generalize (sc_items s') as l. induction items0 as [|it items0 IH]; intros l M Tl; [injection M as <-; auto|].
      apply mapO_cons_inv in M as (y & r & -> & Ey & M). simpl. f_equal.
      + eapply uses_each; [apply item_refs_each; eauto|]. intros a b Ha. apply Nm. eapply Tl; eauto. left; auto.
      + apply IH; auto. intros; eapply Tl; eauto. right; auto.
    - apply (uses_each f j).
      + clear -Mb. revert Mb. generalize (sc_binds s') as l. induction (sc_binds s) as [|b bs IH]; intros l M; [injection M as <-; auto|].
        apply mapO_cons_inv in M as (y & r & -> & Ey & M). unfold bind_each in Ey. simpl. fold f in Ey. destruct (f (bi_value b)); [|discriminate]. injection Ey as <-.
        rewrite (IH r M). auto.
      + intros r r' Hr. apply Nm. apply in_map_iff in Hr as (b & <- & Hb). apply Rb; auto.
    - apply (uses_each f j).
      + clear -Me. revert Me. generalize (sc_exports s') as l. induction (sc_exports s) as [|b bs IH]; intros l M; [injection M as <-; auto|].
        apply mapO_cons_inv in M as (y & r & -> & Ey & M). unfold export_each in Ey. simpl. fold f in Ey. destruct (f (ex_value b)); [|discriminate]. injection Ey as <-.
        rewrite (IH r M). auto.
      + intros r r' Hr. apply Nm. apply in_map_iff in Hr as (b & <- & Hb). apply Re; auto. }
  assert (Node : forall m n', nth_error (sc_items s') m = Some (IOp n') -> exists k n, live dead k /\ rank dead k = m /\ nth_error (sc_items s) k = Some (IOp n) /\ node_each f n = Some n' /\
    forall r, In r (node_refs n) -> target_live dead r).
  { intros m n' Em. destruct (K2 m _ Em) as (k & it & A1 & A2 & A3 & A4). destruct it as [n|[nm is vs its bs es]]; simpl in A4.
    - fold f in A4. destruct (node_each f n) as [n0|] eqn:En; [|discriminate]. injection A4 as <-. exists k, n. repeat (split; auto).
      intros r Hr. apply (Ri k _ r A3 A1 Hr).
    - destruct (mapO (import_each _) is); discriminate. }
  split; [split; [|split]|].
  - intros i j n Ei Ej. destruct (Node _ _ Ei) as (ki & ni & Li & Hi & Ei' & Fi & Ti). destruct (Node _ _ Ej) as (kj & nj & Lj & Hj & Ej' & Fj & Tj).
    destruct ni as [| |r| | |]; simpl in Fi; repeat match type of Fi with context [match ?e with Some _ => _ | None => _ end] => destruct e eqn:?; try discriminate Fi end; try discriminate.
    injection Fi as ->. destruct (Back r (RLocal j)) with (j' := j) as (j0 & -> & L0 & R0); auto. { apply Ti; simpl; auto. }
    assert (j0 = kj) by (apply (rank_inj dead); auto; lia). subst j0. pose proof (S1 ki kj Li Ei') as Q. rewrite Ej' in Q. simpl in Q.
    destruct nj; try discriminate Q; simpl in Fj; repeat match type of Fj with context [match ?e with Some _ => _ | None => _ end] => destruct e eqn:?; try discriminate Fj end; injection Fj as <-; auto.
  - intros i j ops r iops Ei Ej. destruct (Node _ _ Ei) as (ki & ni & Li & Hi & Ei' & Fi & Ti). destruct (Node _ _ Ej) as (kj & nj & Lj & Hj & Ej' & Fj & Tj).
    assert (Ai : exists r0, ni = NLinear r0 ops /\ f r0 = Some (RLocal j)).
    { destruct (each_linear f (IOp ni) (RLocal j) ops) as (r0 & Q & F0); [simpl; rewrite Fi; auto|]. injection Q as ->. eauto. }
    assert (Aj : exists r0, nj = NLinear r0 iops /\ f r0 = Some r).
    { destruct (each_linear f (IOp nj) r iops) as (r0 & Q & F0); [simpl; rewrite Fj; auto|]. injection Q as ->. eauto. }
    destruct Ai as (r0 & -> & F0). destruct Aj as (r1 & -> & F1).
    destruct (Back r0 (RLocal j)) with (j' := j) as (j0 & -> & L0 & R0); auto. { apply Ti; simpl; auto. }
    assert (j0 = kj) by (apply (rank_inj dead); auto; lia). subst j0. rewrite <- Hj, U by auto. exact (S2 ki kj ops r1 iops Li Ei' Ej').
  - intros i j n Ei Ej. destruct (Node _ _ Ei) as (ki & ni & Li & Hi & Ei' & Fi & Ti). destruct (Node _ _ Ej) as (kj & nj & Lj & Hj & Ej' & Fj & Tj).
    assert (ni = nj). { eapply node_each_inj; eauto. }
    subst nj. assert (ki = kj) by (eapply S3; eauto). congruence.
  - unfold compact in E. destruct (retain_live (sc_items s) dead) as [items0|] eqn:Er; [|discriminate]. destruct (each_kept _ _ _ E) as (A1 & _ & _ & _ & _ & A6 & A7). simpl in *.
    split; [rewrite !op_count_sum, A1; eapply retain_ops; eauto|]. split; auto.
    intros c' Hc. destruct (A7 c' Hc) as (c & Hi & B). exists c. split; auto.
    destruct (retain_spec (sc_items s) dead (eq_sym Len)) as (ys & Er' & _ & _ & H2). rewrite Er in Er'. injection Er' as <-.
    apply In_nth_error in Hi as (k & Ek). destruct (H2 k _ Ek) as (n & _ & _ & A3). eapply nth_error_In; eauto.
Qed.

(** ** The whole *)
Lemma rank_repeat n k : rank (repeat false n) k <= n.
Proof. revert k. induction n as [|n IH]; intros [|k]; simpl; try lia. specialize (IH k). lia. Qed.
Lemma live_repeat n k : live (repeat false n) k <-> k < n.
Proof.
  unfold live. split; [|apply nth_error_repeat]. intros H. rewrite <- (repeat_length false n). apply nth_error_Some. congruence.
Qed.
Lemma refs_ok_live s : refs_ok s -> live_ok s (repeat false (length (sc_items s))).
Proof.
  intros (Ri & Rb & Re). split; [apply repeat_length|].
  assert (G : forall n r, n <= length (sc_items s) -> ref_ok s n r -> ref_ok s n r /\ target_live (repeat false (length (sc_items s))) r).
  { intros n r Hn K. split; auto. intros m Em. apply live_repeat. pose proof (ref_ok_bound _ _ _ _ K Em). lia. }
  split; [|split]; intros.
  - apply G; [|eapply Ri; eauto]. apply Nat.lt_le_incl, nth_error_Some. congruence.
  - apply G; auto.
  - apply G; auto.
Qed.
Definition header_kept (s s' : Scope) : Prop :=
  sc_name s' = sc_name s /\ sc_imports s' = sc_imports s /\ sc_vars s' = sc_vars s /\ map ex_name (sc_exports s') = map ex_name (sc_exports s).
Lemma optimize_here_spec s : refs_ok s -> tame s -> exists s', optimize_here s = Some s' /\ refs_ok s' /\ settled s' /\ header_kept s s' /\ op_count s' <= op_count s /\
  (forall c', In (ISub c') (sc_items s') -> exists c, In (ISub c) (sc_items s) /\ same_body c c') /\
  forall depth ims ex, scope_means depth s ims ex <-> scope_means depth s' ims ex.
Proof.
  intros R T. unfold optimize_here. set (n := length (sc_items s)). pose proof (refs_ok_live s R) as Ok. fold n in Ok.
  destruct (loop_spec (S n) s (repeat false n) Ok T) as (s1 & d1 & E1 & K & S1). { unfold live_count. pose proof (rank_repeat n (length (repeat false n))). lia. }
  rewrite E1. pose proof (k_ok _ _ _ _ K) as Ok1. destruct (compact_some s1 d1 Ok1) as (s' & E' & R' & _ & Nm & Im & Vs & _).
  exists s'. destruct (compact_settled s1 d1 s' Ok1 S1 E') as (St & Oc & Sb & En). split; auto. split; auto. split; auto.
  split; [split; [|split; [|split]]|split; [|split]].
  - rewrite Nm. apply K.
  - rewrite Im. apply K.
  - rewrite Vs. apply K.
  - rewrite En. apply K.
  - rewrite op_count_sum, (op_count_sum s), <- (k_ops _ _ _ _ K), <- !op_count_sum. auto.
  - intros c2 H2. destruct (Sb c2 H2) as (c1 & H1 & B1). destruct (k_subs _ _ _ _ K c1 H1) as (c & H0 & B0). exists c. split; auto. eapply same_body_trans; eauto.
  - intros depth ims ex. rewrite (means_sol depth s) by auto. fold n. rewrite (k_sol _ _ _ _ K), (compact_keeps s1 d1 Ok1 depth s' ims ex E'), <- means_sol by auto. tauto.
Qed.

Definition opt_items (its : list Item) : option (list Item) :=
  mapO (fun it => match it with IOp n => Some (IOp n) | ISub c => c <- optimize c; Some (ISub c) end) its.
Lemma optimize_eq s : optimize s = (its <- opt_items (sc_items s); optimize_here (with_items s its)).
Proof.
  destruct s as [nm ims vs its bs es]. cbn [optimize sc_items].
  assert (E : (fix go (its : list Item) : option (list Item) :=
        match its with
        | [] => Some []
        | IOp n :: its => r <- go its; Some (IOp n :: r)
        | ISub c :: its => c <- optimize c; r <- go its; Some (ISub c :: r)
        end) its = opt_items its).
  { unfold opt_items. induction its as [|[n|c] its IH]; auto.
    - cbn [mapO]. rewrite <- IH. auto.
    - cbn [mapO]. rewrite <- IH. destruct (optimize c); auto. }
  rewrite E. auto.
Qed.

Lemma everywhere_body (P : Scope -> Prop) c c' : (forall a b, same_body a b -> P a -> P b) -> same_body c c' -> everywhere P c -> everywhere P c'.
Proof.
  intros HP B [H S]. split; [eapply HP; eauto|]. intros d Hd. apply S. destruct B as (_ & _ & Ei & _). rewrite <- Ei. auto.
Qed.
Lemma refs_ok_body a b : same_body a b -> refs_ok a -> refs_ok b.
Proof.
  intros (_ & Ev & Ei & Eb & Ee & Em) (Ri & Rb & Re).
  assert (G : forall n r, ref_ok a n r -> ref_ok b n r) by (intros n r; unfold ref_ok; rewrite Ei, Ev, Em; auto).
  split; [|split]; rewrite ?Ei, ?Eb, ?Ee; intros; apply G; eauto.
Qed.
Lemma settled_body a b : same_body a b -> settled a -> settled b.
Proof. intros (_ & _ & Ei & Eb & Ee & _). unfold settled, used, all_refs. rewrite Ei, Eb, Ee. auto. Qed.

Theorem optimize_spec s : everywhere refs_ok s -> everywhere tame s -> exists s', optimize s = Some s' /\
  everywhere refs_ok s' /\ everywhere settled s' /\ header_kept s s' /\ op_count s' <= op_count s /\
  forall depth ims ex, scope_means depth s ims ex <-> scope_means depth s' ims ex.
Proof.
  induction s as [s IH] using scope_ind'. intros [R Rs] [T Ts]. rewrite optimize_eq.
  set (g := fun it => match it with IOp n => Some (IOp n) | ISub c => c <- optimize c; Some (ISub c) end).
  assert (Each : forall it, In it (sc_items s) -> exists it', g it = Some it' /\ kind it it' /\ item_ops it' <= item_ops it /\ item_refs it' = item_refs it /\
    match it, it' with
    | IOp n, IOp n' => n' = n
    | ISub c, ISub c' => sc_imports c' = sc_imports c /\ everywhere refs_ok c' /\ everywhere settled c' /\ forall depth ims ex, scope_means depth c ims ex <-> scope_means depth c' ims ex
    | _, _ => False
    end).
  { intros [n|c] Hi; simpl.
    - exists (IOp n). simpl. auto 10.
    - destruct (IH c Hi (Rs c Hi) (Ts c Hi)) as (c' & E & R' & S' & (_ & Im & _ & En) & Oc & M). rewrite E. exists (ISub c'). simpl.
      split; auto. split; [|split; [auto|split; [congruence|auto]]]. rewrite <- (map_length ex_name (sc_exports c)), <- En, map_length. auto. }
  destruct (mapO_some g (sc_items s)) as (its & Ei). { intros it Hi. destruct (Each it Hi) as (it' & E & _). eauto. }
  unfold opt_items. fold g. rewrite Ei. set (s1 := with_items s its).
  destruct (mapO_nth _ _ _ Ei) as (Ln & N1 & N2).
  assert (Nth : forall n it', nth_error its n = Some it' -> exists it, nth_error (sc_items s) n = Some it /\ kind it it' /\ item_refs it' = item_refs it /\
    match it, it' with
    | IOp n, IOp n' => n' = n
    | ISub c, ISub c' => sc_imports c' = sc_imports c /\ everywhere refs_ok c' /\ everywhere settled c' /\ forall depth ims ex, scope_means depth c ims ex <-> scope_means depth c' ims ex
    | _, _ => False
    end).
  { intros n it' E. destruct (N2 n it' E) as (it & E0 & G). exists it. split; auto. destruct (Each it (nth_error_In _ _ E0)) as (x & Gx & K & _ & Rf & Q).
    rewrite G in Gx. injection Gx as <-. auto. }
  assert (R1 : refs_ok s1).
  { destruct R as (Ri & Rb & Re).
    assert (G : forall n r, ref_ok s n r -> ref_ok s1 n r).
    { intros n r. apply ref_ok_kind; auto. intros m it _ Em. destruct (N1 m it Em) as (it' & Em' & G). exists it'. split; auto.
      destruct (Each it (nth_error_In _ _ Em)) as (x & Gx & K & _). rewrite G in Gx. injection Gx as <-. auto. }
    split; [|split].
    - intros n it' r E Hr. destruct (Nth n it' E) as (it & E0 & _ & Rf & _). apply G. apply (Ri n it r); auto. rewrite <- Rf; auto.
    - intros b Hb. unfold s1 at 1; simpl. rewrite Ln. apply G. apply Rb; auto.
    - intros b Hb. unfold s1 at 1; simpl. rewrite Ln. apply G. apply Re; auto. }
  assert (Lin : forall n r ops, nth_error (sc_items s1) n = Some (IOp (NLinear r ops)) -> nth_error (sc_items s) n = Some (IOp (NLinear r ops))).
  { intros n r ops E. destruct (Nth n _ E) as ([m|c] & E0 & _ & _ & Q); [|contradiction]. subst m. auto. }
  assert (T1 : tame s1).
  { assert (G : forall r, delayed_here s1 r -> delayed_here s r).
    { induction 1; [eapply DelayedNow|eapply DelayedBefore]; eauto. }
    intros n r ops E Ht Hd. apply (T n r ops); auto. }
  destruct (optimize_here_spec s1 R1 T1) as (s' & E' & R' & S' & H' & O' & B' & M'). exists s'. split; auto.
  assert (Sub : forall c', In (ISub c') (sc_items s') -> everywhere refs_ok c' /\ everywhere settled c').
  { intros c' Hc. destruct (B' c' Hc) as (c & Hi & B). simpl in Hi. apply In_nth_error in Hi as (k & Ek). destruct (Nth k _ Ek) as ([n|c0] & _ & _ & _ & Q); [contradiction|].
    destruct Q as (_ & Q1 & Q2 & _). split; [eapply everywhere_body; [apply refs_ok_body|exact B|exact Q1]|eapply everywhere_body; [apply settled_body|exact B|exact Q2]]. }
  split; [split; [exact R'|intros c Hc; apply Sub; auto]|]. split; [split; [exact S'|intros c Hc; apply Sub; auto]|].
  split; [exact H'|]. split.
  - rewrite (op_count_sum s) . eapply Nat.le_trans; [exact O'|]. rewrite op_count_sum. simpl. clear -Ei Each. revert its Ei Each. generalize (sc_items s) as l.
    induction l as [|it l IH]; intros its M Each; [injection M as <-; auto|]. apply mapO_cons_inv in M as (y & r & -> & Ey & M). simpl.
    destruct (Each it (or_introl eq_refl)) as (y' & Ey' & _ & Q & _). rewrite Ey in Ey'. injection Ey' as <-.
    specialize (IH r M ltac:(intros; apply Each; right; auto)). lia.
  - intros depth ims ex. rewrite <- M'. rewrite !scope_means_iff. simpl.
    assert (G : forall vars vals, (length vals = length (sc_items s) /\ (forall n it, nth_error (sc_items s) n = Some it -> item_means depth ims vars vals n it)) <->
      (length vals = length its /\ (forall n it, nth_error its n = Some it -> item_means depth ims vars vals n it))).
    { intros vars vals. rewrite Ln. split; intros (L & I); (split; [auto|]).
      - intros n it' E. destruct (Nth n it' E) as (it & E0 & _ & _ & Q). specialize (I n it E0). destruct it as [m|c], it' as [m'|c']; try contradiction; simpl in *.
        + subst; auto.
        + destruct Q as (Q1 & _ & _ & Q4). destruct I as (i & e & o & A & B & C & D). exists i, e, o. rewrite Q1. repeat (split; auto). apply Q4; auto.
      - intros n it E0. destruct (N1 n it E0) as (it' & E & _). destruct (Nth n it' E) as (it0 & E1 & _ & _ & Q). rewrite E0 in E1. injection E1 as <-.
        specialize (I n it' E). destruct it as [m|c], it' as [m'|c']; try contradiction; simpl in *.
        + subst; auto.
        + destruct Q as (Q1 & _ & _ & Q4). destruct I as (i & e & o & A & B & C & D). exists i, e, o. rewrite <- Q1. repeat (split; auto). apply Q4; auto. }
    split; intros (vars & vals & H1 & H2 & H3); exists vars, vals; (split; [auto|split; [apply G; exact H2|exact H3]]).
Qed.
