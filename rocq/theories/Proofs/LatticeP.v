(** Proofs about the models of lattice.rs. *)
From Verif Require Export Spec.LatticeLaws Spec.Collection Model.LatticeM Base.Collections.

Lemma is_lattice_of {T} {LT : Lattice T} : is_lattice (T:=T) tle join meet.
Proof.
  constructor; eauto using tle_refl, tle_trans, tle_antisym, join_lub, meet_glb, join_ub_l, join_ub_r, meet_lb_l, meet_lb_r.
Qed.

Definition lattice_from {T} (le : T -> T -> bool) (jn mt : T -> T -> T) (H : is_lattice le jn mt) : Lattice T := {|
  tle := le; join := jn; meet := mt;
  tle_refl := il_refl _ _ _ H; tle_trans := il_trans _ _ _ H; tle_antisym := il_antisym _ _ _ H;
  join_ub_l := fun x y => proj1 (il_join_ub _ _ _ H x y); join_ub_r := fun x y => proj2 (il_join_ub _ _ _ H x y);
  join_lub := il_join_least _ _ _ H;
  meet_lb_l := fun x y => proj1 (il_meet_lb _ _ _ H x y); meet_lb_r := fun x y => proj2 (il_meet_lb _ _ _ H x y);
  meet_glb := il_meet_greatest _ _ _ H |}.

(** ** Integers *)
Lemma int_is_lattice {T} {O : Ord T} : is_lattice (T:=T) int_le int_join int_meet.
Proof.
  unfold int_le, int_join, int_meet.
  constructor; intros.
  - apply leb_le, le_refl.
  - rewrite leb_le in *; eapply le_trans; eauto.
  - rewrite leb_le in *; apply le_antisym; auto.
  - destruct (leb x y) eqn:E; [apply leb_le in E | apply leb_gt in E]; rewrite !leb_le; auto using le_refl, lt_le.
  - destruct (leb x y); auto.
  - destruct (leb x y) eqn:E; [apply leb_le in E | apply leb_gt in E]; rewrite !leb_le; auto using le_refl, lt_le.
  - destruct (leb x y); auto.
Qed.

#[global] Instance Lattice_nat : Lattice nat := lattice_from _ _ _ int_is_lattice.
#[global] Instance Lattice_unit : Lattice unit := lattice_from _ _ _ int_is_lattice.
Definition Lattice_Z : Lattice Z := lattice_from _ _ _ int_is_lattice.

Lemma nat_tle_le (x y : nat) : tle x y = true -> le x y.
Proof. intros H; apply leb_le; exact H. Qed.
Lemma nat_tmin_le (x : nat) : tle 0 x = true.
Proof. apply leb_le. unfold le; simpl. destruct x; simpl; congruence. Qed.
#[global] Instance Time_nat : Time nat := {| tle_le := nat_tle_le; tmin := 0; tmin_le := nat_tmin_le |}.

Lemma unit_tle_le (x y : unit) : tle x y = true -> le x y.
Proof. intros H; apply leb_le; exact H. Qed.
Lemma unit_tmin_le (x : unit) : tle tt x = true.
Proof. reflexivity. Qed.
#[global] Instance Time_unit : Time unit := {| tle_le := unit_tle_le; tmin := tt; tmin_le := unit_tmin_le |}.

#[global] Instance TotalTime_nat : TotalTime nat.
Proof.
  constructor; intros x y. destruct (le_total x y); [left|right]; apply leb_le; auto.
Qed.

(** ** Product *)
Lemma product_is_lattice {T1 T2} le1 j1 m1 le2 j2 m2 :
  is_lattice (T:=T1) le1 j1 m1 -> is_lattice (T:=T2) le2 j2 m2 ->
  is_lattice (product_le le1 le2) (product_op j1 j2) (product_op m1 m2).
Proof.
  intros [r1 t1 a1 ju1 jl1 mb1 mg1] [r2 t2 a2 ju2 jl2 mb2 mg2]. unfold product_le, product_op.
  constructor; intros; repeat (match goal with x : T1 * T2 |- _ => destruct x end); simpl in *;
    rewrite ?andb_true_iff in *; repeat match goal with H : _ /\ _ |- _ => destruct H end.
  - auto.
  - eauto.
  - f_equal; auto.
  - repeat split; first [apply ju1 | apply ju2].
  - auto.
  - repeat split; first [apply mb1 | apply mb2].
  - auto.
Qed.

#[global] Instance Lattice_prod {T1 T2} {L1 : Lattice T1} {L2 : Lattice T2} : Lattice (T1 * T2) :=
  lattice_from _ _ _ (product_is_lattice _ _ _ _ _ _ is_lattice_of is_lattice_of).

Section ProdTime.
Context {T1 T2 : Type} {H1 : Time T1} {H2 : Time T2}.
Lemma prod_tle (x y : T1 * T2) : tle x y = tle (fst x) (fst y) && tle (snd x) (snd y).
Proof. reflexivity. Qed.
Lemma prod_tle_le (x y : T1 * T2) : tle x y = true -> le x y.
Proof.
  destruct x as [a b], y as [c d]. rewrite prod_tle; simpl. rewrite andb_true_iff. intros [Ha Hb].
  apply tle_le, le_lteq in Ha; apply tle_le, le_lteq in Hb. apply le_lteq. rewrite lt_pair.
  destruct Ha as [Ha| ->]; auto. destruct Hb as [Hb| ->]; auto.
Qed.
Lemma prod_tmin_le (x : T1 * T2) : tle (tmin, tmin) x = true.
Proof. rewrite prod_tle; simpl. rewrite !tmin_le; reflexivity. Qed.
#[global] Instance Time_prod : Time (T1 * T2) := {| tle_le := prod_tle_le; tmin := (tmin, tmin); tmin_le := prod_tmin_le |}.
End ProdTime.

(** ** Lexicographic pairs *)
Lemma lex_is_lattice {T1 T2} eq1 le1 j1 m1 le2 j2 m2 min2 max2 :
  (forall a b : T1, eq1 a b = true <-> a = b) ->
  is_lattice (T:=T1) le1 j1 m1 -> is_lattice (T:=T2) le2 j2 m2 ->
  (forall x, le2 min2 x = true) -> (forall x, le2 x max2 = true) ->
  is_lattice (lex_le eq1 le1 le2) (lex_join eq1 le1 j1 j2 min2) (lex_meet eq1 le1 m1 m2 max2).
Proof.
  intros Heq H1 H2 Hmin Hmax.
  assert (forall a b, lex_le eq1 le1 le2 a b = true <->
     (le1 (fst a) (fst b) = true /\ fst a <> fst b) \/ (fst a = fst b /\ le2 (snd a) (snd b) = true)) as Hle.
  { intros a b. unfold lex_le, lt1. rewrite orb_true_iff, !andb_true_iff, negb_true_iff, Heq.
    rewrite <- (Heq (fst a) (fst b)). destruct (eq1 (fst a) (fst b)); intuition congruence. }
  assert (forall a b, lt1 eq1 le1 a b = true <-> le1 a b = true /\ a <> b) as Hlt.
  { intros a b. unfold lt1. rewrite andb_true_iff, negb_true_iff, <- (Heq a b). destruct (eq1 a b); intuition congruence. }
  assert (forall a b, eq1 a b = false <-> a <> b) as Hneq.
  { intros a b. rewrite <- Heq. destruct (eq1 a b); split; congruence. }
  assert (forall a b, lt1 eq1 le1 a b = false <-> ~ (le1 a b = true /\ a <> b)) as Hnlt.
  { intros a b. rewrite <- Hlt. destruct (lt1 eq1 le1 a b); split; congruence. }
  destruct H1 as [r1 t1 a1 ju1 jl1 mb1 mg1], H2 as [r2 t2 a2 ju2 jl2 mb2 mg2].
  constructor.
  - intros x; apply Hle; auto.
  - intros [x1 x2] [y1 y2] [z1 z2]; rewrite !Hle; simpl. intros [[Ha Hb]|[-> Ha]] [[Hc Hd]|[<- Hc]]; eauto.
    left; split; eauto. intros ->. apply Hd. apply a1; eauto.
  - intros [x1 x2] [y1 y2]; rewrite !Hle; simpl. intros [[Ha Hb]|[-> Ha]] [[Hc Hd]|[Hc Hd]]; try congruence.
    + exfalso; apply Hb, a1; auto.
    + f_equal; auto.
  - intros [x1 x2] [y1 y2]. unfold lex_join; simpl.
    destruct (eq1 x1 y1) eqn:E; [|destruct (lt1 eq1 le1 x1 y1) eqn:E2; [|destruct (lt1 eq1 le1 y1 x1) eqn:E3]].
    + apply Heq in E; subst. rewrite !Hle; simpl. destruct (ju2 x2 y2). auto.
    + apply Hlt in E2. rewrite !Hle; simpl. auto.
    + apply Hlt in E3. rewrite !Hle; simpl. auto.
    + apply Hneq in E; apply Hnlt in E2; apply Hnlt in E3. rewrite !Hle; simpl. destruct (ju1 x1 y1) as [Ja Jb].
      split; left; split; auto; intros E'.
      * rewrite <- E' in Jb. apply E3; split; auto.
      * rewrite <- E' in Ja. apply E2; split; auto.
  - intros [x1 x2] [y1 y2] [z1 z2]. unfold lex_join; simpl.
    destruct (eq1 x1 y1) eqn:E; [|destruct (lt1 eq1 le1 x1 y1) eqn:E2; [|destruct (lt1 eq1 le1 y1 x1) eqn:E3]]; auto.
    + apply Heq in E; subst. rewrite !Hle; simpl. intros [[Ha Hb]|[-> Ha]] [[Hc Hd]|[Hc Hd]]; auto.
    + apply Hneq in E; apply Hnlt in E2; apply Hnlt in E3. rewrite !Hle; simpl.
      destruct (eq1 (j1 x1 y1) z1) eqn:E4; [apply Heq in E4|apply Hneq in E4].
      * intros _ _; right; split; auto.
      * intros [[Ha Hb]|[-> Ha]] [[Hc Hd]|[-> Hc]]; try (left; split; auto; fail); try tauto.
  - intros [x1 x2] [y1 y2]. unfold lex_meet; simpl.
    destruct (eq1 x1 y1) eqn:E; [|destruct (lt1 eq1 le1 x1 y1) eqn:E2; [|destruct (lt1 eq1 le1 y1 x1) eqn:E3]].
    + apply Heq in E; subst. rewrite !Hle; simpl. destruct (mb2 x2 y2). auto.
    + apply Hlt in E2. rewrite !Hle; simpl. auto.
    + apply Hlt in E3. rewrite !Hle; simpl. auto.
    + apply Hneq in E; apply Hnlt in E2; apply Hnlt in E3. rewrite !Hle; simpl. destruct (mb1 x1 y1) as [Ja Jb].
      split; left; split; auto; intros E'.
      * rewrite E' in Jb. apply E2; split; auto.
      * rewrite E' in Ja. apply E3; split; auto.
  - intros [x1 x2] [y1 y2] [z1 z2]. unfold lex_meet; simpl.
    destruct (eq1 x1 y1) eqn:E; [|destruct (lt1 eq1 le1 x1 y1) eqn:E2; [|destruct (lt1 eq1 le1 y1 x1) eqn:E3]]; auto.
    + apply Heq in E; subst. rewrite !Hle; simpl. intros [[Ha Hb]|[-> Ha]] [[Hc Hd]|[Hc Hd]]; auto.
    + apply Hneq in E; apply Hnlt in E2; apply Hnlt in E3. rewrite !Hle; simpl.
      destruct (eq1 z1 (m1 x1 y1)) eqn:E4; [apply Heq in E4|apply Hneq in E4].
      * intros _ _; right; split; auto.
      * intros [[Ha Hb]|[-> Ha]] [[Hc Hd]|[-> Hc]]; try (left; split; auto; fail); try tauto.
Qed.

(** ** Antichains *)
Section AntichainP.
Context {T : Type} {LT : Lattice T}.
Implicit Types F G : list T.

Lemma ac_less_equal_spec F t : ac_less_equal F t = true <-> beyond F t.
Proof. unfold ac_less_equal, beyond. apply existsb_exists. Qed.

Lemma ac_less_equal_false F t : ac_less_equal F t = false <-> ~ beyond F t.
Proof. rewrite <- ac_less_equal_spec. destruct (ac_less_equal F t); split; congruence. Qed.

Lemma beyond_dec F t : beyond F t \/ ~ beyond F t.
Proof. rewrite <- ac_less_equal_spec. destruct (ac_less_equal F t); auto. Qed.

Lemma beyond_nil t : ~ beyond [] t.
Proof. intros [f [[] _]]. Qed.

Lemma beyond_cons f F t : beyond (f :: F) t <-> tle f t = true \/ beyond F t.
Proof.
  unfold beyond; simpl. split.
  - intros [g [[->|H] Hg]]; eauto.
  - intros [H|[g [H Hg]]]; eauto.
Qed.

Lemma beyond_app F G t : beyond (F ++ G) t <-> beyond F t \/ beyond G t.
Proof.
  unfold beyond; split.
  - intros [g [H Hg]]. apply in_app_iff in H as [H|H]; eauto.
  - intros [[g [H Hg]]|[g [H Hg]]]; exists g; rewrite in_app_iff; auto.
Qed.

Lemma beyond_mono F t u : tle t u = true -> beyond F t -> beyond F u.
Proof. intros H [f [Hf Hft]]; exists f; split; auto. eapply tle_trans; eauto. Qed.

Lemma beyond_in F t : In t F -> beyond F t.
Proof. intros H; exists t; split; auto using tle_refl. Qed.

Lemma ac_insert_beyond F t u : beyond (ac_insert F t) u <-> beyond F u \/ tle t u = true.
Proof.
  unfold ac_insert. destruct (ac_less_equal F t) eqn:E.
  - apply ac_less_equal_spec in E. split; auto. intros [H|H]; auto. eapply beyond_mono; eauto.
  - rewrite beyond_app, beyond_cons. split.
    + intros [[f [Hf Hfu]]|[H|H]]; auto.
      * apply filter_In in Hf as [Hf _]. left; exists f; auto.
      * exfalso; exact (beyond_nil _ H).
    + intros [[f [Hf Hfu]]|H]; auto.
      destruct (tle t f) eqn:E2.
      * right; left. eapply tle_trans; eauto.
      * left; exists f; split; auto. apply filter_In; rewrite E2; auto.
Qed.

Lemma antichain_filter p F : antichain F -> antichain (filter p F).
Proof.
  induction 1 as [|x l Hx Hl IH]; simpl; [constructor|].
  destruct (p x); auto. constructor; auto. intros y Hy. apply filter_In in Hy as [Hy _]; auto.
Qed.

Lemma antichain_snoc F t :
  antichain F -> (forall y, In y F -> tle y t = false /\ tle t y = false) -> antichain (F ++ [t]).
Proof.
  induction 1 as [|x l Hx Hl IH]; simpl; intros H.
  - constructor; [intros y [] | constructor].
  - constructor.
    + intros y Hy. apply in_app_iff in Hy as [Hy|[<-|[]]]; auto.
    + apply IH; auto.
Qed.

Lemma ac_insert_antichain F t : antichain F -> antichain (ac_insert F t).
Proof.
  intros H. unfold ac_insert. destruct (ac_less_equal F t) eqn:E; auto.
  apply antichain_snoc.
  - apply antichain_filter; auto.
  - intros y Hy. apply filter_In in Hy as [Hy Hn]. split.
    + destruct (tle y t) eqn:E2; auto. apply ac_less_equal_false in E. exfalso; apply E; exists y; auto.
    + apply negb_true_iff in Hn; auto.
Qed.

Lemma ac_extend_beyond ts F u : beyond (ac_extend F ts) u <-> beyond F u \/ beyond ts u.
Proof.
  unfold ac_extend. revert F; induction ts as [|t ts IH]; intros F; simpl.
  - split; auto. intros [H|H]; auto. exfalso; exact (beyond_nil _ H).
  - rewrite IH, ac_insert_beyond, beyond_cons. tauto.
Qed.

Lemma ac_extend_antichain ts F : antichain F -> antichain (ac_extend F ts).
Proof.
  unfold ac_extend. revert F; induction ts as [|t ts IH]; intros F H; simpl; auto using ac_insert_antichain.
Qed.

Lemma ac_extend_incl ts F t : In t (ac_extend F ts) -> In t F \/ In t ts.
Proof.
  unfold ac_extend. revert F; induction ts as [|x ts IH]; intros F; simpl; auto.
  intros H; apply IH in H as [H|H]; auto.
  unfold ac_insert in H. destruct (ac_less_equal F x); auto.
  apply in_app_iff in H as [H|[->|[]]]; auto. apply filter_In in H as [H _]; auto.
Qed.

Lemma ac_from_beyond ts u : beyond (ac_from ts) u <-> beyond ts u.
Proof. unfold ac_from; rewrite ac_extend_beyond. split; [intros [H|H]; auto; exfalso; exact (beyond_nil _ H) | auto]. Qed.

Lemma ac_from_antichain ts : antichain (ac_from ts).
Proof. apply ac_extend_antichain; constructor. Qed.

Lemma ac_insert_incl F t x : In x (ac_insert F t) -> In x F \/ x = t.
Proof.
  unfold ac_insert. destruct (ac_less_equal F t); auto. rewrite in_app_iff; simpl.
  intros [H|[->|[]]]; auto. apply filter_In in H; tauto.
Qed.

Lemma antichain_join_inner t1 other up u :
  beyond (fold_left (fun up' t2 => ac_insert up' (join t1 t2)) other up) u <->
  beyond up u \/ (tle t1 u = true /\ beyond other u).
Proof.
  revert up; induction other as [|t2 other IH]; intros up; simpl.
  - split; auto. intros [H|[_ H]]; auto. exfalso; exact (beyond_nil _ H).
  - rewrite IH, ac_insert_beyond, beyond_cons, join_tle. tauto.
Qed.

Lemma antichain_join_inner_ac t1 other up :
  antichain up -> antichain (fold_left (fun up' t2 => ac_insert up' (join t1 t2)) other up).
Proof. revert up; induction other as [|t2 other IH]; intros up H; simpl; auto using ac_insert_antichain. Qed.

Lemma antichain_join_outer one other up u :
  beyond (fold_left (fun up t1 => fold_left (fun up' t2 => ac_insert up' (join t1 t2)) other up) one up) u <->
  beyond up u \/ (beyond one u /\ beyond other u).
Proof.
  revert up; induction one as [|t1 one IH]; intros up; simpl.
  - split; auto. intros [H|[H _]]; auto. exfalso; exact (beyond_nil _ H).
  - rewrite IH, antichain_join_inner, beyond_cons. tauto.
Qed.

Lemma antichain_join_beyond one other u :
  beyond (antichain_join one other) u <-> beyond one u /\ beyond other u.
Proof.
  unfold antichain_join, antichain_join_into. rewrite antichain_join_outer.
  split; auto. intros [H|H]; auto. exfalso; exact (beyond_nil _ H).
Qed.

Lemma antichain_join_outer_ac one other up : antichain up ->
  antichain (fold_left (fun up t1 => fold_left (fun up' t2 => ac_insert up' (join t1 t2)) other up) one up).
Proof. revert up; induction one as [|t1 one IH]; intros up H; simpl; auto using antichain_join_inner_ac. Qed.

Lemma antichain_join_antichain one other : antichain (antichain_join one other).
Proof. apply antichain_join_outer_ac; constructor. Qed.

Lemma antichain_meet_beyond one other u :
  beyond (antichain_meet one other) u <-> beyond one u \/ beyond other u.
Proof.
  unfold antichain_meet. change (fold_left ac_insert one []) with (ac_extend [] one).
  change (fold_left ac_insert other ?x) with (ac_extend x other).
  rewrite !ac_extend_beyond. split; [intros [[H|H]|H]; auto; exfalso; exact (beyond_nil _ H) | tauto].
Qed.

Lemma antichain_meet_antichain one other : antichain (antichain_meet one other).
Proof. unfold antichain_meet. apply ac_extend_antichain, ac_extend_antichain; constructor. Qed.

Lemma ac_le_spec F G : ac_le F G = true <-> (forall t, beyond G t -> beyond F t).
Proof.
  unfold ac_le. rewrite forallb_forall. split.
  - intros H t [g [Hg Hgt]]. apply H, ac_less_equal_spec in Hg. eapply beyond_mono; eauto.
  - intros H g Hg. apply ac_less_equal_spec, H, beyond_in, Hg.
Qed.

(** Antichains are determined, as sets, by their futures. *)
Lemma antichain_incl F G x :
  antichain F -> (forall t, beyond F t <-> beyond G t) -> antichain G -> In x F -> In x G.
Proof.
  intros HF H HG Hx.
  assert (beyond G x) as [g [Hg Hgx]] by (apply H, beyond_in; auto).
  assert (beyond F g) as [f [Hf Hfg]] by (apply H, beyond_in; auto).
  assert (f = x) as ->.
  { assert (tle f x = true) as Hfx by (eapply tle_trans; eauto).
    clear -HF Hf Hx Hfx. induction HF as [|y l Hy Hl IH]; [destruct Hx|].
    destruct Hf as [<-|Hf], Hx as [<-|Hx]; auto.
    - apply Hy in Hx as [Hx _]; congruence.
    - apply Hy in Hf as [_ Hf]; congruence. }
  rewrite <- (tle_antisym _ _ Hfg Hgx) in Hg; auto.
Qed.

Lemma antichain_nodup F : antichain F -> NoDup F.
Proof.
  induction 1 as [|x l Hx Hl IH]; constructor; auto. intros Hin. apply Hx in Hin as [Hin _]. rewrite tle_refl in Hin; discriminate.
Qed.

Lemma antichain_eq_in F x y : antichain F -> In x F -> In y F -> tle x y = true -> x = y.
Proof.
  induction 1 as [|z l Hz Hl IH]; intros Hx Hy Hle; [destruct Hx|].
  destruct Hx as [<-|Hx], Hy as [<-|Hy]; auto.
  - apply Hz in Hy as [Hy _]; congruence.
  - apply Hz in Hx as [_ Hx]; congruence.
Qed.

Lemma same_future_perm F G : antichain F -> antichain G -> same_future F G -> Permutation F G.
Proof.
  intros HF HG H. apply NoDup_Permutation; auto using antichain_nodup.
  intros x; split; intros Hx; [eapply (antichain_incl F G) | eapply (antichain_incl G F)]; eauto.
  intros t; symmetry; apply H.
Qed.

(** ** advance_by *)
Lemma advance_by_fold t rest r0 u :
  tle u (fold_left (fun result f => meet result (join t f)) rest r0) = true <->
  tle u r0 = true /\ (forall f, In f rest -> tle u (join t f) = true).
Proof.
  revert r0; induction rest as [|f rest IH]; intros r0; simpl.
  - split; [intros H; split; auto; intros ? [] | tauto].
  - rewrite IH, tle_meet. split.
    + intros [[H1 H2] H3]; split; auto. intros g [<-|Hg]; auto.
    + intros [H1 H2]; repeat split; auto.
Qed.

Lemma advance_by_glb t F u : F <> [] ->
  (tle u (advance_by t F) = true <-> forall f, In f F -> tle u (join t f) = true).
Proof.
  destruct F as [|f [|g F]]; intros HF; [congruence| |].
  - simpl. split; [intros H x [<-|[]]; auto | auto].
  - unfold advance_by. rewrite advance_by_fold. split.
    + intros [H1 H2] x [<-|Hx]; auto.
    + intros H; split; [apply H; left; auto | intros x Hx; apply H; right; auto].
Qed.

Lemma advance_by_nil t : advance_by t [] = t.
Proof. reflexivity. Qed.

Lemma advance_by_ge t F : tle t (advance_by t F) = true.
Proof.
  destruct F as [|f F]; [apply tle_refl|]. apply advance_by_glb; [discriminate|]. intros; apply join_ub_l.
Qed.

Lemma advance_by_le_join t F f : In f F -> tle (advance_by t F) (join t f) = true.
Proof.
  intros Hf. assert (F <> []) as HF by (intros ->; destruct Hf).
  apply (proj1 (advance_by_glb t F (advance_by t F) HF) (tle_refl _) f Hf).
Qed.

Lemma advance_by_sound t F u : beyond F u -> tle (advance_by t F) u = tle t u.
Proof.
  intros [f [Hf Hfu]]. apply eq_true_iff_eq. split.
  - intros H. eapply tle_trans; [apply advance_by_ge|exact H].
  - intros H. eapply tle_trans; [apply (advance_by_le_join t F f Hf)|]. apply join_lub; auto.
Qed.

Lemma advance_by_canonical t1 t2 F : F <> [] ->
  (forall u, beyond F u -> tle t1 u = tle t2 u) <-> advance_by t1 F = advance_by t2 F.
Proof.
  intros HF; split.
  - intros H. 
    assert (forall a b, (forall u, beyond F u -> tle a u = tle b u) -> tle (advance_by a F) (advance_by b F) = true) as Hone.
    { intros a b Hab. apply advance_by_glb; auto. intros f Hf.
      eapply tle_trans; [apply (advance_by_le_join a F f Hf)|]. apply join_lub; [|apply join_ub_r].
      rewrite Hab; [apply join_ub_l|]. exists f; split; auto using join_ub_r. }
    apply tle_antisym; apply Hone; auto. intros u Hu; symmetry; auto.
  - intros H u Hu. rewrite <- (advance_by_sound t1 F u Hu), <- (advance_by_sound t2 F u Hu), H; reflexivity.
Qed.

Lemma advance_by_mono t1 t2 F : tle t1 t2 = true -> tle (advance_by t1 F) (advance_by t2 F) = true.
Proof.
  intros H. destruct F as [|f F]; auto. apply advance_by_glb; [discriminate|]. intros g Hg.
  eapply tle_trans; [apply advance_by_le_join; exact Hg|]. apply join_mono; auto using tle_refl.
Qed.

Lemma advance_by_idem t F : advance_by (advance_by t F) F = advance_by t F.
Proof.
  destruct F as [|f F]; auto. apply advance_by_canonical; [discriminate|].
  intros u Hu; apply advance_by_sound; auto.
Qed.
End AntichainP.

(** Antichains as a lattice, up to equality of futures (timely's set equality of antichains). *)
Section AntichainLattice.
Context {T : Type} {LT : Lattice T}.
Implicit Types F G H : list T.

Lemma ac_le_refl F : ac_le F F = true.
Proof. apply ac_le_spec; auto. Qed.
Lemma ac_le_trans F G H : ac_le F G = true -> ac_le G H = true -> ac_le F H = true.
Proof. rewrite !ac_le_spec; auto. Qed.
Lemma ac_le_antisym F G : antichain F -> antichain G -> ac_le F G = true -> ac_le G F = true -> Permutation F G.
Proof. rewrite !ac_le_spec; intros HF HG H1 H2; apply same_future_perm; auto. split; auto. Qed.
Lemma ac_join_ub F G : ac_le F (antichain_lattice_join F G) = true /\ ac_le G (antichain_lattice_join F G) = true.
Proof. rewrite !ac_le_spec. split; intros t Ht; apply antichain_join_beyond in Ht; tauto. Qed.
Lemma ac_join_lub F G H : ac_le F H = true -> ac_le G H = true -> ac_le (antichain_lattice_join F G) H = true.
Proof. rewrite !ac_le_spec; intros H1 H2 t Ht. apply antichain_join_beyond; auto. Qed.
Lemma ac_meet_lb F G : ac_le (antichain_lattice_meet F G) F = true /\ ac_le (antichain_lattice_meet F G) G = true.
Proof. rewrite !ac_le_spec. split; intros t Ht; apply antichain_meet_beyond; auto. Qed.
Lemma ac_meet_glb F G H : ac_le H F = true -> ac_le H G = true -> ac_le H (antichain_lattice_meet F G) = true.
Proof. rewrite !ac_le_spec; intros H1 H2 t Ht. apply antichain_meet_beyond in Ht as [Ht|Ht]; auto. Qed.
End AntichainLattice.

Lemma nat_tle (a b : nat) : tle a b = true <-> a <= b.
Proof.
  unfold tle; simpl. unfold int_le, leb; simpl. destruct (Nat.compare_spec a b); split; intros; try reflexivity; try discriminate; lia.
Qed.
