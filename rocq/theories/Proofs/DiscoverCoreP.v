(** Why the times found by [discover_times] suffice (Model/ProxyReduceM.v): an argument about any set of times
    closed as they are, with no regard to how it was computed.

    Corrections are made at the moments only.  A moment may be a time of the input that is later forgotten, because the
    input there is advanced and cancels; then later moments are not joined with it.  The corrections made there
    cancel too, which is what [cancels] says. *)
From Verif Require Export Base.Collections Proofs.ComputeP.
From Verif Require Import Base.Order.

(** ** Sums over updates whose times satisfy a test *)
Section Sums.
Context {V T R : Type} {OV : Ord V} {TT : Time T} {DR : Diff R}.
Notation update := (V * T * R)%type.
Definition sumf (f : T -> bool) (l : list update) (v : V) : R := dsum (map snd (filter (fun u => eqb (fst (fst u)) v && f (snd (fst u))) l)).
Lemma sumf_cons f u l v : sumf f (u :: l) v = dplus (if eqb (fst (fst u)) v && f (snd (fst u)) then snd u else dzero) (sumf f l v).
Proof. unfold sumf. cbn [filter]. destruct (_ && _); cbn [map dsum]; rewrite ?dplus_0_l; auto. Qed.
Lemma sumf_acc l v t : acc l v t = sumf (fun s => tle s t) l v.
Proof. reflexivity. Qed.
Lemma sumf_ext f g l v : (forall u, In u l -> f (snd (fst u)) = g (snd (fst u))) -> sumf f l v = sumf g l v.
Proof. intros H. induction l as [|u l IH]; auto. rewrite !sumf_cons, IH, (H u); simpl; auto. intros; apply H; simpl; auto. Qed.
Lemma sumf_zero f l v : (forall u, In u l -> f (snd (fst u)) = false) -> sumf f l v = dzero.
Proof. intros H. induction l as [|u l IH]; auto. rewrite sumf_cons, IH, (H u), andb_false_r, dplus_0_l; simpl; auto. intros; apply H; simpl; auto. Qed.
Lemma sumf_split f g l v : sumf f l v = dplus (sumf (fun s => f s && g s) l v) (sumf (fun s => f s && negb (g s)) l v).
Proof.
  induction l as [|u l IH]; [cbn; rewrite dplus_0_l; auto|]. rewrite !sumf_cons, IH. destruct (eqb (fst (fst u)) v), (f (snd (fst u))), (g (snd (fst u))); cbn [andb negb];
  rewrite ?dplus_0_l; auto. - rewrite dplus_assoc; auto. - rewrite (dplus_comm _ (dplus (snd u) _)), (dplus_comm (sumf _ l v) (sumf _ l v)), <- !dplus_assoc; auto.
Qed.
Lemma sumf_app f l l' v : sumf f (l ++ l') v = dplus (sumf f l v) (sumf f l' v).
Proof. unfold sumf. rewrite filter_app, map_app, dsum_app. auto. Qed.
Lemma sumf_same_weights f l l' v : same_weights (A:=V*T) l l' -> sumf f l v = sumf f l' v.
Proof.
  intros H. assert (E : forall l, sumf f l v = lsum (fun a r => if eqb (fst a) v && f (snd a) then r else dzero) l).
  { clear. induction l as [|u l IH]; auto. rewrite sumf_cons, IH. reflexivity. }
  rewrite !E. apply lsum_same_weights; auto.
  - intros a; destruct (_ && _); reflexivity.
  - intros a r1 r2; destruct (_ && _); auto. symmetry; apply dplus_0_l.
Qed.
(** a sum is zero if it is on every group *)
Lemma sumf_groups (h : T -> T) l v : forall n f, length (filter (fun u => f (snd (fst u))) l) <= n ->
  (forall u, In u l -> f (snd (fst u)) = true -> sumf (fun s => f s && eqb (h s) (h (snd (fst u)))) l v = dzero) -> sumf f l v = dzero.
Proof.
  induction n as [|n IH]; intros f Hn H.
  - apply sumf_zero. intros u Hu. destruct (f (snd (fst u))) eqn:E; auto. assert (In u (filter (fun u => f (snd (fst u))) l)) by (apply filter_In; auto).
    destruct (filter _ l); [contradiction|simpl in Hn; lia].
  - destruct (filter (fun u => f (snd (fst u))) l) as [|u0 r] eqn:E0.
    { apply sumf_zero. intros u Hu. destruct (f (snd (fst u))) eqn:E; auto. assert (In u (filter (fun u => f (snd (fst u))) l)) by (apply filter_In; auto). rewrite E0 in H0; contradiction. }
    assert (H0 : In u0 l /\ f (snd (fst u0)) = true) by (apply (filter_In (fun u : update => f (snd (fst u)))); rewrite E0; simpl; auto). destruct H0 as [I0 F0].
    rewrite (sumf_split f (fun s => eqb (h s) (h (snd (fst u0))))). rewrite (H u0 I0 F0), dplus_0_l. apply IH.
    + assert (L : forall (f g : update -> bool) l, (forall u, g u = true -> f u = true) -> length (filter g l) <= length (filter f l) /\ ((exists u, In u l /\ f u = true /\ g u = false) -> length (filter g l) < length (filter f l))).
      { clear. intros f g l H. induction l as [|a l [IH1 IH2]]; [split; auto; intros (u & [] & _)|]. cbn [filter]. split.
        - destruct (g a) eqn:G; [rewrite (H _ G); simpl; lia|]. destruct (f a); simpl; lia.
        - intros (u & [->|Hu] & F & G); [rewrite F, G; simpl; lia|]. assert (length (filter g l) < length (filter f l)) by eauto. destruct (g a) eqn:Ga; [rewrite (H _ Ga); simpl; lia|]. destruct (f a); simpl; lia. }
      destruct (L (fun u : update => f (snd (fst u))) (fun u => f (snd (fst u)) && negb (eqb (h (snd (fst u))) (h (snd (fst u0))))) l) as [_ L2].
      { intros u Hu. apply andb_true_iff in Hu. tauto. }
      rewrite E0 in L2. cut (length (filter (fun u => f (snd (fst u)) && negb (eqb (h (snd (fst u))) (h (snd (fst u0))))) l) < length (u0 :: r)); [simpl in *; lia|].
      apply L2. exists u0. split; auto. split; auto. rewrite eqb_refl, andb_false_r. auto.
    + intros u Hu Fu. apply andb_true_iff in Fu. destruct Fu as [Fu Nu]. rewrite <- (H u Hu Fu) at 1. apply sumf_ext. intros u' _.
      destruct (eqb_spec (h (snd (fst u'))) (h (snd (fst u)))) as [E|]; [|rewrite !andb_false_r; auto]. rewrite E, Nu, !andb_true_r. auto.
Qed.
Lemma sumf_by_groups (h : T -> T) f l v :
  (forall u, In u l -> f (snd (fst u)) = true -> sumf (fun s => f s && eqb (h s) (h (snd (fst u)))) l v = dzero) -> sumf f l v = dzero.
Proof. apply (sumf_groups h l v _ f (Nat.le_refl _)). Qed.
End Sums.

Lemma last_such {T} {TT : Time T} (Q : T -> bool) (M : list T) : (exists p, In p M /\ Q p = true) -> exists w, In w M /\ Q w = true /\ forall p, In p M -> Q p = true -> le p w.
Proof.
  induction M as [|a M IH]; [intros (p & [] & _)|]. intros (p & Hp & Qp).
  destruct (existsb Q M) eqn:E.
  - apply existsb_exists in E. destruct (IH E) as (w & Hw & Qw & L). destruct (Q a) eqn:Qa.
    + destruct (leb w a) eqn:La.
      * exists a. split; [simpl; auto|]. split; auto. intros q [<-|Hq] Qq; [apply le_refl|]. eapply le_trans; [apply L; auto|apply leb_le; auto].
      * exists w. split; [simpl; auto|]. split; auto. intros q [<-|Hq] Qq; auto. apply lt_le, leb_gt; auto.
    + exists w. split; [simpl; auto|]. split; auto. intros q [<-|Hq] Qq; auto. congruence.
  - assert (N : forall q, In q M -> Q q = false). { intros q Hq. destruct (Q q) eqn:Eq; auto. assert (existsb Q M = true) by (apply existsb_exists; eauto). congruence. }
    destruct Hp as [->|Hp]; [|rewrite (N p Hp) in Qp; discriminate]. exists p. split; [simpl; auto|]. split; auto. intros q [<-|Hq] Qq; [apply le_refl|]. rewrite (N q Hq) in Qq; discriminate.
Qed.

Section Core.
Context {V1 V2 T R1 R2 : Type} {OV1 : Ord V1} {OV2 : Ord V2} {TT : Time T} {D1 : Diff R1} {D2 : Diff R2} {A2 : Abelian R2}.
Notation times l := (map (fun u => snd (fst u)) l).
Notation up1 := (V1 * T * R1)%type. Notation up2 := (V2 * T * R2)%type.
Variable LI : list up1. Variables LO Prod : list up2.
(** all times that are interesting by themselves: seeds, pending times and the joins made of them; the times kept
    for later; and the moments, with what is a lower bound of all times still to come at each *)
Variables K N M : list T. Variable mm : T -> T.
(** times at which something is claimed *)
Variable ok : T -> Prop.
Hypothesis ok_down : forall r t, tle r t = true -> ok t -> ok r.
Hypothesis ok_N : forall n, In n N -> ~ ok n.
Definition event (e : T) : Prop := In e (times LI) \/ In e (times LO) \/ In e K.
Hypothesis mm_le : forall x, In x M -> tle (mm x) x = true.
Hypothesis mm_mono : forall x y, In x M -> In y M -> lt x y -> tle (mm x) (mm y) = true.
(** a moment is joined with what came before it and has not been forgotten *)
Hypothesis join_K : forall x e, In x M -> In e K \/ In e (times LO) -> le e x -> tle e x = true \/ In (join e x) (K ++ N).
Definition group (x c : T) (s : T) : bool := leb s x && eqb (join s (mm x)) c.
Hypothesis join_I : forall x e, In x M -> In e (times LI) -> le e x -> tle e x = true \/ In (join e x) (K ++ N) \/
  forall v, sumf (group x (join e (mm x))) LI v = dzero.
(** every time is joined with the interesting times that came before it *)
Hypothesis join_E : forall e b t, ok t -> event e -> In b K -> tle e t = true -> tle b t = true -> le b e -> tle b e = true \/ In (join b e) (K ++ N).
(** what is at or after an interesting time is a moment, or kept *)
Hypothesis moment_E : forall e b, event e -> In b K -> tle b e = true -> In e M \/ In e N.
Hypothesis M_seed : forall x, In x M -> exists b, In b K /\ tle b x = true.
(** the output is corrected at the moments only, and is right there *)
Hypothesis Prod_M : forall u, In u Prod -> In (snd (fst u)) M.
Variable F : T -> V2 -> R2.
Definition after_K (t : T) : Prop := exists b, In b K /\ tle b t = true.
Hypothesis F_ext : forall t t', after_K t -> after_K t' -> (forall v, acc LI v t = acc LI v t') -> forall v, F t v = F t' v.
Hypothesis M_right : forall x, In x M -> forall v, F x v = dplus (acc LO v x) (acc Prod v x).

Lemma ok_join e x t : ok t -> tle e t = true -> tle x t = true -> In (join e x) (K ++ N) -> In (join e x) K.
Proof. intros Ot Le Lx H. apply in_app_iff in H. destruct H as [H|H]; auto. destruct (ok_N _ H). eapply ok_down; [|exact Ot]. apply join_lub; auto. Qed.
Lemma ok_moment e b t : ok t -> tle e t = true -> event e -> In b K -> tle b e = true -> In e M.
Proof. intros Ot Le He Hb Lb. destruct (moment_E e b He Hb Lb) as [H|H]; auto. destruct (ok_N _ H). eapply ok_down; eauto. Qed.
Lemma K_moment b t : ok t -> tle b t = true -> In b K -> In b M.
Proof. intros Ot L Hb. apply (ok_moment b b t); auto. - right; right; auto. - apply tle_refl. Qed.

(** what was forgotten of the corrections, at a moment *)
Definition cancels (x : T) : Prop := forall c, ok c -> tle (mm x) c = true -> tle c x = false ->
  (forall b, In b K -> join b (mm x) <> c) -> (forall o, In o (times LO) -> le o x -> join o (mm x) <> c) ->
  (forall v, sumf (group x c) LI v = dzero) -> forall v, sumf (group x c) Prod v = dzero.

Lemma in_times {V R} (u : V * T * R) l : In u l -> In (snd (fst u)) (times l).
Proof. apply (in_map (fun u : V * T * R => snd (fst u))). Qed.

(** Within a region of times, everything accumulates to what it is at its last moment. *)
Section Region.
Variable Q : T -> bool. Variables z w : T.
Hypothesis Hz : ok z.
Hypothesis Qz : forall s, Q s = true -> tle s z = true.
Hypothesis Qw : Q w = true.
Hypothesis Mw : In w M.
Hypothesis Lw : forall p, In p M -> Q p = true -> le p w.
Hypothesis QK : forall b, In b K -> tle b z = true -> Q b = true.
Hypothesis Qle : forall s, tle s w = true -> Q s = true.
Hypothesis Qgr : forall s u, Q u = true -> join s (mm w) = join u (mm w) -> Q s = true.
Hypothesis Sw : cancels w.
Let wz : tle w z = true := Qz w Qw.

(** an event of the region that is not after [w] in the total order *)
Lemma region_before e : event e -> Q e = true -> le e w.
Proof.
  intros He Qe. destruct (leb e w) eqn:E; [apply leb_le; auto|]. exfalso. apply leb_gt in E.
  destruct (M_seed w Mw) as (b & Hb & Lb). pose proof (Qz _ Qe) as Lz.
  assert (Lbz : tle b z = true) by (eapply tle_trans; [exact Lb|exact wz]).
  destruct (join_E e b z Hz He Hb Lz Lbz) as [L|J].
  { apply lt_le. eapply le_lt_trans; [apply tle_le; exact Lb|exact E]. }
  - assert (HM : In e M) by (apply (ok_moment e b z); auto). pose proof (Lw e HM Qe) as H. exact (lt_irrefl _ (lt_le_trans _ _ _ E H)).
  - apply (ok_join b e z) in J; auto. assert (Lj : tle (join b e) z = true) by (apply join_lub; auto).
    pose proof (Lw _ (K_moment _ z Hz Lj J) (QK _ J Lj)) as H.
    assert (Hlt : lt w (join b e)) by (eapply lt_le_trans; [exact E|apply tle_le, join_ub_r]). exact (lt_irrefl _ (lt_le_trans _ _ _ Hlt H)).
Qed.
Lemma region_join e : tle e z = true -> tle e w = false -> In (join e w) (K ++ N) -> False.
Proof.
  intros Le Nw J. apply (ok_join e w z) in J; auto. assert (Lj : tle (join e w) z = true) by (apply join_lub; auto).
  pose proof (Lw _ (K_moment _ z Hz Lj J) (QK _ J Lj)) as H. pose proof (tle_le _ _ (join_ub_r e w)) as H'.
  assert (E : join e w = w) by (apply le_antisym; auto). apply join_eq_r in E. congruence.
Qed.
Lemma region_group {V R} (l : list (V * T * R)) u : Q u = true -> tle u w = false -> (forall s, In s l -> Q (snd (fst s)) = true -> le (snd (fst s)) w) ->
  forall s, In s l -> (Q (snd (fst s)) && negb (tle (snd (fst s)) w)) && eqb (join (snd (fst s)) (mm w)) (join u (mm w)) = group w (join u (mm w)) (snd (fst s)).
Proof.
  intros Qu Nu Hl s Hs. unfold group. destruct (eqb_spec (join (snd (fst s)) (mm w)) (join u (mm w))) as [E|]; [|rewrite !andb_false_r; auto]. rewrite !andb_true_r.
  pose proof (Qgr _ _ Qu E) as Qs. rewrite Qs. cbn [andb]. assert (Lb : leb (snd (fst s)) w = true) by (apply leb_le; auto). rewrite Lb.
  destruct (tle (snd (fst s)) w) eqn:L; auto. exfalso. assert (L' : tle (join u (mm w)) w = true) by (rewrite <- E; apply join_lub; auto).
  rewrite (tle_trans _ _ _ (join_ub_l u (mm w)) L') in Nu. discriminate.
Qed.
Lemma region_split {V R} {OV : Ord V} {DR : Diff R} (l : list (V * T * R)) v : sumf Q l v = dplus (acc l v w) (sumf (fun s => Q s && negb (tle s w)) l v).
Proof.
  rewrite (sumf_split Q (fun s => tle s w)), sumf_acc. f_equal. apply sumf_ext. intros u _. destruct (tle (snd (fst u)) w) eqn:L; [rewrite (Qle _ L)|rewrite andb_false_r]; auto.
Qed.
Lemma region_above u : Q u = true -> tle (join u (mm w)) z = true.
Proof. intros Qu. apply join_lub; [auto|]. eapply tle_trans; [apply mm_le; exact Mw|exact wz]. Qed.
Lemma region_LI_group u : Q u = true -> tle u w = false -> forall v, sumf (group w (join u (mm w))) LI v = dzero.
Proof.
  intros Qu Nu v. destruct (existsb (fun u' => group w (join u (mm w)) (snd (fst u'))) LI) eqn:E.
  - apply existsb_exists in E. destruct E as (u' & Hu' & G). unfold group in G. apply andb_true_iff in G. destruct G as [G1 G2]. apply leb_le in G1. destruct (eqb_spec (join (snd (fst u')) (mm w)) (join u (mm w))) as [Ej|]; [|discriminate].
    pose proof (Qgr _ _ Qu Ej) as Qu'.
    assert (Nu' : tle (snd (fst u')) w = false).
    { destruct (tle (snd (fst u')) w) eqn:L; auto. exfalso. assert (L' : tle (join u (mm w)) w = true) by (rewrite <- Ej; apply join_lub; auto).
      rewrite (tle_trans _ _ _ (join_ub_l u (mm w)) L') in Nu. discriminate. }
    destruct (join_I w _ Mw (in_times _ _ Hu') G1) as [L|[J|Z]]; [congruence| |].
    + exfalso. eapply region_join; [apply Qz; exact Qu'|exact Nu'|exact J].
    + rewrite <- Ej. apply Z.
  - apply sumf_zero. intros u' Hu'. destruct (group w (join u (mm w)) (snd (fst u'))) eqn:G; auto. assert (existsb (fun u' => group w (join u (mm w)) (snd (fst u'))) LI = true) by (apply existsb_exists; eauto). congruence.
Qed.
Lemma region_LI v : sumf Q LI v = acc LI v w.
Proof.
  rewrite region_split. rewrite (sumf_by_groups (fun s => join s (mm w))); [apply dplus_0_r|]. intros u Hu Fu. apply andb_true_iff in Fu. destruct Fu as [Qu Nu]. apply negb_true_iff in Nu.
  rewrite (sumf_ext _ (group w (join (snd (fst u)) (mm w)))).
  - apply region_LI_group; auto.
  - apply region_group; auto. intros s Hs Qs. apply region_before; auto. left. apply in_times; auto.
Qed.
Lemma region_LO v : sumf Q LO v = acc LO v w.
Proof.
  rewrite region_split. rewrite (sumf_zero (fun s => Q s && negb (tle s w))); [apply dplus_0_r|]. intros u Hu. destruct (Q (snd (fst u))) eqn:Qu; auto. cbn [andb]. apply negb_false_iff.
  destruct (tle (snd (fst u)) w) eqn:Nu; auto. exfalso. pose proof (in_times _ _ Hu) as Hi.
  destruct (join_K w _ Mw (or_intror Hi)) as [L|J]; [apply region_before; auto; right; left; auto|congruence|].
  eapply region_join; [apply Qz; exact Qu|exact Nu|exact J].
Qed.
Lemma region_Prod v : sumf Q Prod v = acc Prod v w.
Proof.
  rewrite region_split. rewrite (sumf_by_groups (fun s => join s (mm w))); [apply dplus_0_r|]. intros u Hu Fu. apply andb_true_iff in Fu. destruct Fu as [Qu Nu]. apply negb_true_iff in Nu.
  rewrite (sumf_ext _ (group w (join (snd (fst u)) (mm w)))); [|apply region_group; auto].
  set (d := join (snd (fst u)) (mm w)). assert (Ld : tle d z = true) by (apply region_above; auto).
  assert (Nd : tle d w = false). { destruct (tle d w) eqn:L; auto. rewrite (tle_trans _ _ _ (join_ub_l _ (mm w)) L) in Nu. discriminate. }
  assert (NE : forall e, join e (mm w) = d -> Q e = true /\ tle e w = false).
  { intros e E. split; [eapply Qgr; [exact Qu|exact E]|]. destruct (tle e w) eqn:L; auto. assert (L' : tle d w = true) by (rewrite <- E; apply join_lub; auto). congruence. }
  apply Sw; auto.
  - eapply ok_down; eauto.
  - apply join_ub_r.
  - intros b Hb E. destruct (NE b E) as [Qb Nb]. destruct (join_K w b Mw (or_introl Hb)) as [L|J]; [|congruence|].
    + apply region_before; auto. right; right; auto.
    + eapply region_join; [apply Qz; exact Qb|exact Nb|exact J].
  - intros o Ho Lo E. destruct (NE o E) as [Qo No]. destruct (join_K w o Mw (or_intror Ho) Lo) as [L|J]; [congruence|].
    eapply region_join; [apply Qz; exact Qo|exact No|exact J].
  - apply region_LI_group; auto.
Qed.
End Region.

Lemma cancels_all : forall n x, In x M -> length (filter (fun p => ltb p x) M) < n -> cancels x.
Proof.
  induction n as [|n IH]; [intros; lia|]. intros x Hx Hn c Oc Lm Nx HK HO HI v.
  assert (IH' : forall p, In p M -> lt p x -> cancels p).
  { intros p Hp Lp. apply IH; auto. cut (length (filter (fun q => ltb q p) M) < length (filter (fun q => ltb q x) M)); [lia|].
    clear -Hp Lp. assert (G : forall M, length (filter (fun q => ltb q p) M) <= length (filter (fun q => ltb q x) M) /\ (In p M -> length (filter (fun q => ltb q p) M) < length (filter (fun q => ltb q x) M))).
    { intros M0. induction M0 as [|a M0 [I1 I2]]; [split; auto; intros []|]. cbn [filter]. destruct (ltb a p) eqn:La.
      - assert (Lx : ltb a x = true) by (apply ltb_lt; eapply lt_trans; [apply ltb_lt; exact La|exact Lp]). rewrite Lx. cbn [length]. split; [lia|]. intros [->|H]; [|specialize (I2 H); lia].
        apply ltb_lt in La. destruct (lt_irrefl _ La).
      - split; [destruct (ltb a x); cbn [length]; lia|]. intros [->|H]; [|specialize (I2 H); destruct (ltb a x); cbn [length]; lia].
        assert (Lx : ltb p x = true) by (apply ltb_lt; auto). rewrite Lx. cbn [length]. lia. }
    apply G; auto. }
  set (m := mm x) in *.
  destruct (existsb (fun p => ltb p x && eqb (join p m) c) M) eqn:EE.
  2:{ apply sumf_zero. intros u Hu. unfold group. fold m. destruct (leb (snd (fst u)) x && eqb (join (snd (fst u)) m) c) eqn:G; auto. exfalso.
      apply andb_true_iff in G. destruct G as [G1 G2]. pose proof (Prod_M _ Hu) as HM. apply leb_le in G1. apply le_lteq in G1. destruct G1 as [G1|G1].
      - assert (existsb (fun p => ltb p x && eqb (join p m) c) M = true); [|congruence]. apply existsb_exists. exists (snd (fst u)). split; auto. rewrite G2, andb_true_r. apply ltb_lt; auto.
      - rewrite G1 in G2. destruct (eqb_spec (join x m) c) as [E|]; [|discriminate]. assert (tle c x = true); [|congruence]. rewrite <- E. apply join_lub; [apply tle_refl|apply mm_le; auto]. }
  apply existsb_exists in EE. destruct (last_such (fun p => ltb p x && eqb (join p m) c) M EE) as (p & Hp & Qp & Last). clear EE.
  apply andb_true_iff in Qp. destruct Qp as [Lpx Ep]. apply ltb_lt in Lpx. destruct (eqb_spec (join p m) c) as [Epc|]; [clear Ep|discriminate].
  assert (NX : forall s, join s m = c -> s <> x).
  { intros s E ->. assert (tle c x = true); [|congruence]. rewrite <- E. apply join_lub; [apply tle_refl|apply mm_le; auto]. }
  assert (LastE : forall s, In s M -> leb s x = true -> join s m = c -> le s p).
  { intros s Hs Ls E. apply Last; auto. apply andb_true_iff. split; [|rewrite E; apply eqb_refl]. apply leb_le in Ls. apply le_lteq in Ls. destruct Ls as [Ls|Ls]; [apply ltb_lt; auto|destruct (NX s E Ls)]. }
  set (mp := mm p) in *. assert (Lmp : tle mp m = true) by (apply mm_mono; auto). assert (Lpc : tle p c = true) by (rewrite <- Epc; apply join_ub_l).
  assert (Lmpp : tle mp p = true) by (apply mm_le; auto).
  assert (JM : forall s, join (join s mp) m = join s m). { intros s. rewrite join_assoc. f_equal. apply join_eq_r; auto. }
  destruct (M_seed p Hp) as (b0 & Hb0 & Lb0). assert (Lb0c : tle b0 c = true) by (eapply tle_trans; eauto).
  assert (KC : forall b, In b K -> join b m <> c) by exact HK.
  (* events of the group do not come after p *)
  assert (BE : forall e, event e -> leb e x = true -> join e m = c -> le e p).
  { intros e He Le E. destruct (leb e p) eqn:Lep; [apply leb_le; auto|]. exfalso. apply leb_gt in Lep. assert (Lec : tle e c = true) by (rewrite <- E; apply join_ub_l).
    destruct (join_E e b0 c Oc He Hb0 Lec Lb0c) as [L|J].
    { apply lt_le. eapply le_lt_trans; [apply tle_le; exact Lb0|exact Lep]. }
    - pose proof (LastE e (ok_moment e b0 c Oc Lec He Hb0 L) Le E) as H. exact (lt_irrefl _ (lt_le_trans _ _ _ Lep H)).
    - apply (ok_join b0 e c) in J; auto. apply (KC _ J). rewrite join_assoc, E. apply join_eq_r; auto. }
  assert (GE : forall {V R} (l : list (V * T * R)) u, (forall s, In s l -> leb (snd (fst s)) x = true -> join (snd (fst s)) m = c -> le (snd (fst s)) p) ->
    join u m = c -> tle u p = false ->
    forall s, In s l -> (group x c (snd (fst s)) && negb (tle (snd (fst s)) p)) && eqb (join (snd (fst s)) mp) (join u mp) = group p (join u mp) (snd (fst s))).
  { intros V R l u Hl Eu Nu s Hs. unfold group. fold m mp. destruct (eqb_spec (join (snd (fst s)) mp) (join u mp)) as [E|]; [|rewrite !andb_false_r; auto]. rewrite !andb_true_r.
    assert (Es : join (snd (fst s)) m = c) by (rewrite <- JM, E, JM; auto). rewrite Es, eqb_refl, andb_true_r.
    assert (Ns : tle (snd (fst s)) p = false).
    { destruct (tle (snd (fst s)) p) eqn:L; auto. assert (L' : tle (join u mp) p = true) by (rewrite <- E; apply join_lub; auto). rewrite (tle_trans _ _ _ (join_ub_l u mp) L') in Nu. discriminate. }
    rewrite Ns, andb_true_r. destruct (leb (snd (fst s)) x) eqn:Lx.
    - symmetry. apply leb_le. apply Hl; auto.
    - symmetry. apply leb_gt. apply leb_gt in Lx. eapply lt_trans; eauto. }
  assert (IG : forall u, join u m = c -> tle u p = false -> forall v, sumf (group p (join u mp)) LI v = dzero).
  { intros u Eu Nu v'. destruct (existsb (fun u' => group p (join u mp) (snd (fst u'))) LI) eqn:E.
    - apply existsb_exists in E. destruct E as (u' & Hu' & G). unfold group in G. fold mp in G. apply andb_true_iff in G. destruct G as [G1 G2]. apply leb_le in G1. destruct (eqb_spec (join (snd (fst u')) mp) (join u mp)) as [Ej|]; [|discriminate].
      assert (Es : join (snd (fst u')) m = c) by (rewrite <- JM, Ej, JM; auto). assert (Lu' : tle (snd (fst u')) c = true) by (rewrite <- Es; apply join_ub_l).
      destruct (join_I p _ Hp (in_times _ _ Hu') G1) as [L|[J|Z]].
      + exfalso. assert (L' : tle (join u mp) p = true) by (rewrite <- Ej; apply join_lub; auto). rewrite (tle_trans _ _ _ (join_ub_l u mp) L') in Nu. discriminate.
      + exfalso. apply (ok_join _ _ c) in J; auto. apply (KC _ J). rewrite join_assoc, Epc. apply join_eq_r; auto.
      + fold mp in Z. rewrite <- Ej. apply Z.
    - apply sumf_zero. intros u' Hu'. destruct (group p (join u mp) (snd (fst u'))) eqn:G; auto. assert (existsb (fun u' => group p (join u mp) (snd (fst u'))) LI = true) by (apply existsb_exists; eauto). congruence. }
  (* the corrections: only those at or before p are left *)
  assert (P1 : sumf (group x c) Prod v = sumf (fun s => group x c s && tle s p) Prod v).
  { rewrite (sumf_split (group x c) (fun s => tle s p)). rewrite (sumf_by_groups (fun s => join s mp) (fun s => group x c s && negb (tle s p))); [apply dplus_0_r|].
    intros u Hu Fu. apply andb_true_iff in Fu. destruct Fu as [Gu Nu]. apply negb_true_iff in Nu. unfold group in Gu. fold m in Gu. apply andb_true_iff in Gu. destruct Gu as [Gu1 Gu2].
    destruct (eqb_spec (join (snd (fst u)) m) c) as [Eu|]; [|discriminate].
    rewrite (sumf_ext _ (group p (join (snd (fst u)) mp))).
    2:{ apply GE; [|exact Eu|exact Nu]. intros s Hs Ls Es. apply LastE; auto. }
    set (d := join (snd (fst u)) mp). assert (Ed : join d m = c) by (unfold d; rewrite JM; auto).
    apply (IH' p Hp Lpx d).
    - eapply ok_down; [|exact Oc]. rewrite <- Ed. apply join_ub_l.
    - apply join_ub_r.
    - destruct (tle d p) eqn:L; auto. rewrite (tle_trans _ _ _ (join_ub_l _ mp) L) in Nu. discriminate.
    - intros b Hb E. apply (KC b Hb). fold mp in E. rewrite <- JM, E. auto.
    - intros o Ho Lo E. apply (HO o Ho); [eapply le_trans; [exact Lo|apply lt_le; auto]|]. fold mp in E. rewrite <- JM, E. auto.
    - apply IG; auto. }
  assert (I1 : forall v, sumf (fun s => group x c s && tle s p) LI v = dzero).
  { intros v'. rewrite <- (HI v'). rewrite (sumf_split (group x c) (fun s => tle s p)). rewrite (sumf_by_groups (fun s => join s mp) (fun s => group x c s && negb (tle s p))); [rewrite dplus_0_r; auto|].
    intros u Hu Fu. apply andb_true_iff in Fu. destruct Fu as [Gu Nu]. apply negb_true_iff in Nu. unfold group in Gu. fold m in Gu. apply andb_true_iff in Gu. destruct Gu as [Gu1 Gu2].
    destruct (eqb_spec (join (snd (fst u)) m) c) as [Eu|]; [|discriminate].
    rewrite (sumf_ext _ (group p (join (snd (fst u)) mp))); [apply IG; auto|]. apply GE; [|exact Eu|exact Nu]. intros s Hs Ls Es. apply BE; auto. left. apply in_times; auto. }
  (* the last moment before p outside of the group *)
  set (Q := fun s => tle s p && negb (eqb (join s m) c)).
  assert (QK : forall b, In b K -> tle b p = true -> Q b = true).
  { intros b Hb L. unfold Q. rewrite L. cbn [andb]. apply negb_true_iff. destruct (eqb_spec (join b m) c) as [E|]; auto. destruct (KC b Hb E). }
  assert (Op : ok p) by (eapply ok_down; eauto).
  destruct (last_such Q M) as (w & Hw & Qw & Lw).
  { exists b0. split; [apply (K_moment b0 c); auto|apply QK; auto]. }
  assert (Qw' := Qw). unfold Q in Qw'. apply andb_true_iff in Qw'. destruct Qw' as [Lwp Ew]. apply negb_true_iff in Ew.
  assert (Lwp' : lt w p). { destruct (proj1 (le_lteq _ _) (tle_le _ _ Lwp)) as [H|H]; auto. subst w. rewrite Epc, eqb_refl in Ew. discriminate. }
  assert (Lmw : tle (mm w) m = true) by (apply mm_mono; auto; eapply lt_trans; eauto).
  assert (JW : forall s, join (join s (mm w)) m = join s m). { intros s. rewrite join_assoc. f_equal. apply join_eq_r; auto. }
  assert (Qz : forall s, Q s = true -> tle s p = true). { intros s H. unfold Q in H. apply andb_true_iff in H. tauto. }
  assert (Qle : forall s, tle s w = true -> Q s = true).
  { intros s L. unfold Q. rewrite (tle_trans _ _ _ L Lwp). cbn [andb]. apply negb_true_iff. destruct (eqb_spec (join s m) c) as [E|]; auto. exfalso.
    assert (E' : join w m = c).
    { apply tle_antisym; [rewrite <- Epc; apply join_lub; [eapply tle_trans; [exact Lwp|apply join_ub_l]|apply join_ub_r]|].
      rewrite <- E. apply join_lub; [eapply tle_trans; [exact L|apply join_ub_l]|apply join_ub_r]. }
    rewrite E', eqb_refl in Ew. discriminate. }
  assert (Qgr : forall s u, Q u = true -> join s (mm w) = join u (mm w) -> Q s = true).
  { intros s u Qu E. unfold Q in *. apply andb_true_iff in Qu. destruct Qu as [Lu Nu]. assert (Ls : tle s p = true).
    { eapply tle_trans; [apply (join_ub_l s (mm w))|]. rewrite E. apply join_lub; [assumption|]. eapply tle_trans; [apply mm_le; assumption|assumption]. }
    rewrite Ls. cbn [andb]. rewrite <- JW, E, JW. auto. }
  assert (Sw : cancels w) by (apply IH'; auto; eapply lt_trans; eauto).
  pose proof (region_LI Q p w Op Qz Qw Hw Lw QK Qle Qgr) as RI. pose proof (region_LO Q p w Op Qz Qw Hw Lw QK Qle) as RO.
  pose proof (region_Prod Q p w Op Qz Qw Hw Lw QK Qle Qgr Sw) as RP.
  assert (SP : forall {V R} {OV : Ord V} {DR : Diff R} (l : list (V * T * R)) v, acc l v p = dplus (sumf (fun s => group x c s && tle s p) l v) (sumf Q l v)).
  { intros V R OV DR l v'. rewrite sumf_acc, (sumf_split (fun s => tle s p) (fun s => eqb (join s m) c)). f_equal. apply sumf_ext. intros u _. unfold group. fold m.
    destruct (tle (snd (fst u)) p) eqn:L; [|rewrite andb_false_r; auto]. rewrite andb_true_r. cbn [andb].
    assert (Lx : leb (snd (fst u)) x = true) by (apply leb_le; eapply le_trans; [apply tle_le; exact L|apply lt_le; auto]). rewrite Lx. auto. }
  assert (EI : forall v, acc LI v p = acc LI v w) by (intros v'; rewrite SP, I1, dplus_0_l; apply RI).
  assert (EO : acc LO v p = acc LO v w).
  { rewrite SP, (sumf_zero (fun s => group x c s && tle s p)), dplus_0_l; [apply RO|]. intros u Hu. unfold group. fold m. destruct (leb (snd (fst u)) x) eqn:L; auto. cbn [andb].
    destruct (eqb_spec (join (snd (fst u)) m) c) as [E|]; auto. apply leb_le in L. destruct (HO _ (in_times _ _ Hu) L E). }
  rewrite P1. pose proof (SP _ _ _ _ Prod v) as EP. rewrite RP in EP.
  pose proof (M_right p Hp v) as Rp. rewrite (F_ext p w (M_seed p Hp) (M_seed w Hw) EI v), (M_right w Hw v), EO in Rp. apply dplus_cancel_l in Rp. rewrite EP in Rp.
  apply (dplus_cancel_r (acc Prod v w)). rewrite dplus_0_l. auto.
Qed.

(** The output is right at all times at or after an interesting one. *)
Theorem right_everywhere t b : ok t -> In b K -> tle b t = true -> forall v, F t v = dplus (acc LO v t) (acc Prod v t).
Proof.
  intros Ot Hb Lb v. destruct (last_such (fun s => tle s t) M) as (w & Hw & Qw & Lw).
  { exists b. split; auto. apply (K_moment b t); auto. }
  assert (Sw : cancels w) by (eapply cancels_all; eauto).
  assert (Qgr : forall s u, tle u t = true -> join s (mm w) = join u (mm w) -> tle s t = true).
  { intros s u Lu E. eapply tle_trans; [apply (join_ub_l s (mm w))|]. rewrite E. apply join_lub; [assumption|]. eapply tle_trans; [apply mm_le; assumption|assumption]. }
  assert (Qle : forall s, tle s w = true -> tle s t = true) by (intros s L; eapply tle_trans; eauto).
  pose proof (region_LI (fun s => tle s t) t w Ot (fun s H => H) Qw Hw Lw (fun b _ H => H) Qle Qgr) as RI.
  pose proof (region_LO (fun s => tle s t) t w Ot (fun s H => H) Qw Hw Lw (fun b _ H => H) Qle v) as RO.
  pose proof (region_Prod (fun s => tle s t) t w Ot (fun s H => H) Qw Hw Lw (fun b _ H => H) Qle Qgr Sw v) as RP.
  rewrite (F_ext t w (ex_intro _ b (conj Hb Lb)) (M_seed w Hw)), !sumf_acc, RO, RP; [apply M_right; auto|]. intros v'. rewrite sumf_acc. apply RI.
Qed.
End Core.
