(** Which terms are accepted. *)
From Coq Require Import String.
From Verif Require Export Proofs.PipeMeansP.
From Coq Require Import Lia.
Local Open Scope nat_scope.

Lemma builtin_takes cx f args us : Forall2 (fun a u => elab cx a = Some u) args us -> (exists t, build_builtin f us = Some t) <-> takes f args.
Proof.
  intros F. assert (L : length args = length us) by (induction F; simpl; auto). unfold build_builtin, takes. cbn [existsb].
  destruct (String.eqb_spec f "tuple") as [->|N1]; [simpl; split; eauto|]. destruct (String.eqb_spec f "list") as [->|N2]; [simpl; split; eauto|].
  destruct (String.eqb_spec f "inject") as [->|N3]; [simpl; rewrite L; destruct us as [|? [|? [|]]]; simpl; split; intros H; eauto; try discriminate; destruct H; discriminate|].
  destruct (String.eqb_spec f "variant") as [->|N4]; [simpl; rewrite L; destruct us as [|? [|? [|]]]; simpl; split; intros H; eauto; try discriminate; destruct H; discriminate|].
  destruct (String.eqb_spec f "case") as [->|N5]; [simpl; rewrite L; destruct us as [|? [|? ?]]; simpl; split; intros H; eauto; try lia; destruct H; discriminate|].
  destruct (String.eqb_spec f "fold") as [->|N6]; [simpl; rewrite L; destruct us as [|? [|? [|? [|]]]]; simpl; split; intros H; eauto; try discriminate; destruct H; discriminate|].
  destruct (String.eqb_spec f "proj") as [->|N7].
  { simpl. split.
    - intros [t H]. destruct us as [|u [|w [|]]]; try discriminate; destruct w; try discriminate. inversion F as [|a0 ? args0 ? E0 F0]; subst. inversion F0 as [|a1 ? args1 ? E1 F1]; subst. inversion F1; subst. apply elab_shape in E1. destruct E1 as [E1 _]. destruct (E1 _ eq_refl) as (m & -> & _). eauto.
    - intros (a & i & ->). inversion F as [|a0 ? args0 ? E0 F0]; subst. inversion F0 as [|a1 ? args1 ? E1 F1]; subst. inversion F1; subst. injection E1 as <-. eauto. }
  destruct (String.eqb_spec f "len") as [->|N8]; [simpl; rewrite L; destruct us as [|? [|]]; simpl; split; intros H; eauto; try discriminate; destruct H; discriminate|].
  destruct (String.eqb_spec f "istag") as [->|N9].
  { simpl. split.
    - intros [t H]. destruct us as [|u us]; try discriminate. destruct u; try discriminate. destruct us as [|w [|]]; try discriminate. inversion F as [|a0 ? args0 ? E0 F0]; subst. inversion F0 as [|a1 ? args1 ? E1 F1]; subst. inversion F1; subst. apply elab_shape in E0. destruct E0 as [E0 _]. destruct (E0 _ eq_refl) as (m & -> & _). eauto.
    - intros (g & a & ->). inversion F as [|a0 ? args0 ? E0 F0]; subst. inversion F0 as [|a1 ? args1 ? E1 F1]; subst. inversion F1; subst. injection E0 as <-. eauto. }
  destruct (String.eqb_spec f "not") as [->|N10]; [simpl; rewrite L; destruct us as [|? [|]]; simpl; split; intros H; eauto; try discriminate; destruct H; discriminate|].
  destruct (String.eqb_spec f "or") as [->|N11]; [simpl; rewrite L; destruct us as [|? [|? [|]]]; simpl; split; intros H; eauto; try discriminate; destruct H; discriminate|].
  destruct (String.eqb_spec f "if") as [->|N12]; [simpl; rewrite L; destruct us as [|? [|? [|? [|]]]]; simpl; split; intros H; eauto; try discriminate; destruct H; discriminate|].
  destruct (String.eqb_spec f "hash") as [->|N13]; [simpl; rewrite L; destruct us as [|? [|? ?]]; simpl; split; intros H; eauto; try lia; destruct H; discriminate|].
  simpl. split; [intros [t H]; discriminate|contradiction].
Qed.

Lemma proper_call cons b f args : proper cons b (PCall f args) <-> Forall (proper cons b) args /\ match lookup cons f with Some (_, arity) => length args = arity | None => takes f args end.
Proof. cbn [proper]. apply and_iff_compat_r. induction args as [|a args IH]; [split; constructor|]. rewrite Forall_cons_iff, <- IH. reflexivity. Qed.
Definition arm_proper (cons : list (string * (nat * nat))) (b : list string) (a : Pattern * PT) : Prop :=
  match fst a with Ctor c xs => (exists tag, lookup cons c = Some (tag, length xs)) /\ proper cons (xs ++ b) (snd a) | Default => proper cons b (snd a) end.
Lemma proper_case cons b s arms : proper cons b (PCase s arms) <-> proper cons b s /\ Forall (arm_proper cons b) arms /\ (gapless cons arms \/ exists d, In (Default, d) arms).
Proof.
  cbn [proper]. apply and_iff_compat_l. apply and_iff_compat_r. clear s. induction arms as [|[p a] arms IH]; [split; constructor|]. rewrite Forall_cons_iff, <- IH. unfold arm_proper at 1. destruct p; cbn [fst snd]; tauto.
Qed.
Definition knows (cx : Ctx) (b : list string) : Prop := forall x, In x b <-> exists l f, find_binder (cx_binders cx) x = Some (l, f).
Lemma find_binder_in bs x : (exists l f, find_binder bs x = Some (l, f)) <-> In x (map (fun b => fst (fst b)) bs).
Proof.
  induction bs as [|[[n l] f] bs IH]; cbn [find_binder map In fst]; [split; [intros (? & ? & [=])|contradiction]|]. destruct (String.eqb_spec n x); [split; eauto|]. rewrite IH. split; [auto|intros [H|H]; [contradiction|auto]].
Qed.
Lemma knows_bind cx b xs : knows cx b -> knows (bind_names xs cx) (xs ++ b).
Proof.
  intros K x. rewrite in_app_iff, find_binder_in. unfold bind_names. cbn [cx_binders]. rewrite map_app, in_app_iff. rewrite (K x), find_binder_in. apply or_iff_compat_r.
  rewrite map_rev, <- in_rev. generalize 0 as o. induction xs as [|y xs IH]; intros o; [reflexivity|]. cbn [length seq map combine In fst]. rewrite (IH (S o)). reflexivity.
Qed.

Lemma arms_elab cx b arms : knows cx b ->
  Forall (fun a => forall cx b, knows cx b -> (exists t, elab cx (snd a) = Some t) <-> proper (cx_cons cx) b (snd a)) arms ->
  forall g d, (exists r, elab_arms cx arms g d = Some r) <-> Forall (arm_proper (cx_cons cx) b) arms.
Proof.
  intros K. induction 1 as [|[p x] arms IHx F IH]; intros g d; [split; [constructor|simpl; eauto]|]. rewrite Forall_cons_iff. unfold arm_proper at 1. cbn [fst snd] in *. destruct p as [c xs|]; cbn [elab_arms].
  - destruct (lookup (cx_cons cx) c) as [[tag ar]|]; [|split; [intros [r [=]]|intros [[[tag [=]] _] _]]].
    destruct (Nat.eqb_spec (length xs) ar) as [<-|NE]; [|split; [intros [r [=]]|intros [[[tag' [= <- E]] _] _]; congruence]].
    rewrite <- (IHx (bind_names xs cx) (xs ++ b) (knows_bind _ _ _ K)). destruct (elab (bind_names xs cx) x) as [a|]; [|split; [intros [r [=]]|intros [[_ [t [=]]] _]]]. rewrite IH. split; [intros H; split; eauto|tauto].
  - rewrite <- (IHx cx b K). destruct (elab cx x) as [a|]; [|split; [intros [r [=]]|intros [[t [=]] _]]]. rewrite IH. split; [eauto|tauto].
Qed.
(** The arms and default that were read, by the tags of constructors. *)
Lemma arms_tags cx arms : forall g0 d0 tagged d, elab_arms cx arms g0 d0 = Some (tagged, d) -> exists new, tagged = g0 ++ new /\
    (d = None <-> d0 = None /\ forall x, ~ In (Default, x) arms) /\
    (forall t a, In (t, a) new -> exists c xs x ar, In (Ctor c xs, x) arms /\ lookup (cx_cons cx) c = Some (t, ar)) /\
    (forall c xs x t ar, In (Ctor c xs, x) arms -> lookup (cx_cons cx) c = Some (t, ar) -> exists a, In (t, a) new).
Proof.
  induction arms as [|[pt x] arms IHa]; intros g0 d0 tagged d H.
  - injection H as <- <-. exists []. rewrite app_nil_r. split; auto. split; [split; [auto|tauto]|]. split; simpl; intros; contradiction.
  - destruct pt as [c xs|]; cbn [elab_arms] in H.
    + destruct (lookup (cx_cons cx) c) as [[tag ar]|] eqn:L; [|discriminate]. destruct (length xs =? ar); [|discriminate]. destruct (elab (bind_names xs cx) x) as [a|] eqn:E; [|discriminate].
      destruct (IHa _ _ _ _ H) as (new & -> & D & I1 & I2). exists ((tag, a) :: new). split; [rewrite <- app_assoc; auto|]. split; [|split].
      * rewrite D. apply and_iff_compat_l. split; intros Q y; [intros [[=]|I]; exact (Q y I)|intros I; apply (Q y); simpl; auto].
      * intros t b [[= <- <-]|I]; [exists c, xs, x, ar; simpl; auto|]. destruct (I1 _ _ I) as (c' & xs' & x' & ar' & Q & Q'). exists c', xs', x', ar'. simpl. auto.
      * intros c' xs' x' t ar' [[= <- <- <-]|I] Q; [rewrite L in Q; injection Q as <- <-; exists a; simpl; auto|]. destruct (I2 _ _ _ _ _ I Q) as [b B]. exists b. simpl. auto.
    + destruct (elab cx x) as [a|] eqn:E; [|discriminate]. destruct (IHa _ _ _ _ H) as (new & -> & D & I1 & I2). exists new. split; auto. split; [|split].
      * rewrite D. split; [intros [[=] _]|intros [_ Q]; destruct (Q x); simpl; auto].
      * intros t b I. destruct (I1 _ _ I) as (c' & xs' & x' & ar' & Q & Q'). exists c', xs', x', ar'. simpl. auto.
      * intros c' xs' x' t ar' [[=]|I] Q. eauto.
Qed.
Lemma mapO_total {A B} (f : A -> option B) l : (exists out, mapO f l = Some out) <-> forall x, In x l -> f x <> None.
Proof.
  induction l as [|x l IH]; [split; [intros _ x []|simpl; eauto]|]. cbn [mapO]. split.
  - intros [out H]. destruct (f x) eqn:E; [|discriminate]. destruct (mapO f l); [|discriminate]. intros y [->|I]; [congruence|apply (proj1 IH); eauto].
  - intros H. destruct (f x) as [y|] eqn:E; [|destruct (H x (or_introl eq_refl) E)]. destruct (proj2 IH) as [out ->]; [intros y0 I; apply H; simpl; auto|eauto].
Qed.
Lemma case_made cx s arms tagged d : elab_arms cx arms [] None = Some (tagged, d) -> (exists t, make_case s tagged d = Some t) <-> gapless (cx_cons cx) arms \/ exists x, In (Default, x) arms.
Proof.
  intros H. destruct (arms_tags _ _ _ _ _ _ H) as (new & EN & D & I1 & I2). cbn [app] in EN. subst new. unfold make_case.
  assert (X : (exists out, mapO (fun t => match arm_for tagged t with Some a => Some a | None => d end) (seq 0 (arm_count tagged)) = Some out) <-> gapless (cx_cons cx) arms \/ exists x, In (Default, x) arms).
  { rewrite mapO_total. destruct d as [d|].
    - split; [|intros _ x _; destruct (arm_for tagged x); discriminate]. intros _. right.
      assert (Y : forall l, (exists x, In (Default, x) l) \/ forall x : PT, ~ In (Default, x) l).
      { induction l as [|[[c xs|] x] l [[y Y]|Y]]; [right; auto|left; exists y; simpl; auto|right; intros y [[=]|I]; exact (Y y I)|left; exists y; simpl; auto|left; exists x; simpl; auto]. }
      destruct (Y arms) as [Q|Q]; auto. assert (Some d = None) by (apply D; auto). discriminate.
    - assert (ND : forall x, ~ In (Default, x) arms) by (apply D; auto). split.
      + intros Q. left. intros c xs x tag ar t I L LT. destruct (I2 _ _ _ _ _ I L) as [a IA]. assert (LC : t < arm_count tagged) by (apply arm_count_spec; exists tag, a; split; auto; lia).
        specialize (Q t). destruct (arm_for tagged t) as [b|] eqn:AF; [|destruct Q; [apply in_seq; lia|auto]]. apply arm_for_some in AF. destruct (I1 _ _ AF) as (c' & xs' & x' & ar' & Q1 & Q2). eauto 10.
      + intros [GL|[x I]]; [|destruct (ND x I)]. intros n N. apply in_seq in N. destruct N as [_ N]. simpl in N. apply arm_count_spec in N. destruct N as (t & a & I & LE).
        assert (Y : exists b, In (n, b) tagged).
        { destruct (Nat.eq_dec t n) as [->|NE]; [eauto|]. destruct (I1 _ _ I) as (c & xs & x & ar & C1 & C2). destruct (GL c xs x t ar n C1 C2 ltac:(lia)) as (c' & xs' & x' & ar' & C3 & C4). eapply I2; eauto. }
        apply arm_for_in in Y. destruct Y as [b ->]. discriminate. }
  rewrite <- X. split; [intros [t T]; destruct (mapO _ _); [eauto|discriminate]|intros [out ->]; eauto].
Qed.

Lemma elab_proper s : forall cx b, knows cx b -> (exists t, elab cx s = Some t) <-> proper (cx_cons cx) b s.
Proof.
  induction s as [n|k|n|x|f args IH|s arms IHs IH|l i s IHl IHi IHs|t IH|op l r0 IHl IHr|t i IH] using PT_rect'; intros cx b K.
  - split; [intros _; exact I|simpl; eauto].
  - split; [intros _; exact I|simpl; eauto].
  - split; [intros _; exact I|simpl; eauto].
  - cbn [elab proper]. unfold resolve_binder. rewrite (K x). destruct (find_binder (cx_binders cx) x) as [[l f]|]; split; eauto; intros H; [destruct H; discriminate|destruct H as (? & ? & [=])].
  - rewrite elab_call, proper_call.
    assert (X : (exists us, elab_args cx args = Some us) <-> Forall (proper (cx_cons cx) b) args).
    { induction IH as [|a args IHx F IHa]; [split; [constructor|simpl; eauto]|]. rewrite Forall_cons_iff. cbn [elab_args]. rewrite <- (IHx cx b K), <- IHa. destruct (elab cx a) as [u|]; [|split; [intros [us [=]]|intros [[t [=]] _]]].
      destruct (elab_args cx args) as [us|]; [|split; [intros [us [=]]|intros [_ [t [=]]]]]. split; eauto. }
    rewrite <- X. clear X IH. destruct (elab_args cx args) as [us|] eqn:EA; [|split; [intros [t [=]]|intros [[t [=]] _]]]. apply elab_args_shape in EA. unfold call.
    assert (L : length args = length us) by (induction EA; simpl; auto).
    destruct (lookup (cx_cons cx) f) as [[tag ar]|].
    + rewrite L. destruct (Nat.eqb_spec (length us) ar); [split; eauto|split; [intros [t [=]]|intros [_ Q]; contradiction]].
    + rewrite (builtin_takes cx f args us EA). split; [eauto|tauto].
  - rewrite elab_case, proper_case, <- (IHs cx b K), <- (arms_elab cx b arms K IH [] None). destruct (elab cx s) as [t|]; [|split; [intros [r [=]]|intros [[r [=]] _]]].
    destruct (elab_arms cx arms [] None) as [[tagged d]|] eqn:EA; [|split; [intros [r [=]]|intros (_ & [r [=]] & _)]]. rewrite (case_made cx t arms tagged d EA). split; [eauto|tauto].
  - cbn [elab proper]. assert (K2 : knows (deeper 2 cx) b) by exact K. rewrite <- (IHl cx b K), <- (IHi cx b K). specialize (IHs (deeper 2 cx) b K2). cbn [cx_cons deeper] in IHs. rewrite <- IHs. unfold deeper.
    destruct (elab cx l) as [t1|]; [|split; [intros [r [=]]|intros [[r [=]] _]]]. destruct (elab cx i) as [t2|]; [|split; [intros [r [=]]|intros (_ & [r [=]] & _)]]. destruct (elab _ s) as [t3|]; [|split; [intros [r [=]]|intros (_ & _ & [r [=]])]]. split; [intros _; split; [eauto|]; split; eauto|eauto].
  - cbn [elab proper]. rewrite <- (IH cx b K). destruct (elab cx t); split; intros [r H]; try discriminate; eauto.
  - cbn [elab proper]. rewrite <- (IHl cx b K), <- (IHr cx b K). destruct (elab cx l) as [t1|]; [|split; [intros [r [=]]|intros [[r [=]] _]]]. destruct (elab cx r0) as [t2|]; [|split; [intros [r [=]]|intros [_ [r [=]]]]]. split; [intros _; split; eauto|eauto].
  - cbn [elab proper]. rewrite <- (IH cx b K). destruct (elab cx t); split; intros [r H]; try discriminate; eauto.
Qed.
