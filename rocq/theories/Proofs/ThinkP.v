(** The per-key join: the wave over two histories produces the cross product. *)
From Coq Require Import Permutation Sorted.
From Verif Require Export Proofs.ReplayP Proofs.BilinearP Model.JoinM.

Section ThinkP.
Context {V1 V2 T R1 R2 B S : Type} {OV1 : Ord V1} {OV2 : Ord V2} {TT : Time T} {D1 : Diff R1} {D2 : Diff R2}
  {OB : Ord B} {DS : Diff S}.
Local Notation call := (V1 * V2 * T * R1 * R2)%type.
Local Notation U1 := (V1 * T * R1)%type.
Local Notation U2 := (V2 * T * R2)%type.
(** what a call contributes: additive in both differences *)
Variable f : V1 -> V2 -> T -> R1 -> R2 -> list (B * S).
Definition fc (c : call) : list (B * S) := let '(v1, v2, t, r1, r2) := c in f v1 v2 t r1 r2.
Record biadditive : Prop := {
  ba_0_l : forall v1 v2 t r2 b, weight (f v1 v2 t dzero r2) b = dzero;
  ba_0_r : forall v1 v2 t r1 b, weight (f v1 v2 t r1 dzero) b = dzero;
  ba_plus_l : forall v1 v2 t r1 r1' r2 b, weight (f v1 v2 t (dplus r1 r1') r2) b = dplus (weight (f v1 v2 t r1 r2) b) (weight (f v1 v2 t r1' r2) b);
  ba_plus_r : forall v1 v2 t r1 r2 r2' b, weight (f v1 v2 t r1 (dplus r2 r2')) b = dplus (weight (f v1 v2 t r1 r2) b) (weight (f v1 v2 t r1 r2') b)
}.
Hypothesis HB : biadditive.

Definition cross (us1 : list U1) (us2 : list U2) : list call := flat_map (fun u1 => emit1 u1 us2) us1.
Definition out (calls : list call) : list (B * S) := flat_map fc calls.
Definition w (calls : list call) (b : B) : S := weight (out calls) b.
Lemma w_app c1 c2 b : w (c1 ++ c2) b = dplus (w c1 b) (w c2 b).
Proof. unfold w, out. rewrite flat_map_app, weight_app. auto. Qed.
Lemma w_nil b : w [] b = dzero.
Proof. reflexivity. Qed.
Lemma emit1_app u1 a b : emit1 u1 (a ++ b) = emit1 (V1:=V1) (R1:=R1) (V2:=V2) (R2:=R2) u1 a ++ emit1 u1 b.
Proof. unfold emit1. apply map_app. Qed.
Lemma emit2_app u2 a b : emit2 u2 (a ++ b) = emit2 (V1:=V1) (R1:=R1) (V2:=V2) (R2:=R2) u2 a ++ emit2 u2 b.
Proof. unfold emit2. apply map_app. Qed.
Lemma w_cross_app_l a b us2 x : w (cross (a ++ b) us2) x = dplus (w (cross a us2) x) (w (cross b us2) x).
Proof. unfold cross. rewrite flat_map_app, w_app. auto. Qed.
Lemma w_cross_app_r us1 a b x : w (cross us1 (a ++ b)) x = dplus (w (cross us1 a) x) (w (cross us1 b) x).
Proof.
  induction us1 as [|u us1 IH]; simpl; [rewrite !w_nil, dplus_0_l; auto|]. rewrite emit1_app, !w_app, IH. dperm.
Qed.
Lemma w_cross_one_l u us2 x : w (cross [u] us2) x = w (emit1 u us2) x.
Proof. unfold cross. simpl. rewrite app_nil_r. auto. Qed.
Lemma w_cross_one_r us1 u x : w (cross us1 [u]) x = w (emit2 u us1) x.
Proof.
  induction us1 as [|u1 us1 IH]; [reflexivity|]. change (u1 :: us1) with ([u1] ++ us1).
  rewrite w_cross_app_l, emit2_app, w_app, IH. f_equal.
Qed.

(** the emission sees the buffer only through its times joined with the emitted update's *)
Lemma emit1_same (u1 : U1) (l1 l2 : list U2) : same_weights (A:=V2*T) (map (advance_to (snd (fst u1))) l1) (map (advance_to (snd (fst u1))) l2) ->
  forall x, w (emit1 u1 l1) x = w (emit1 u1 l2) x.
Proof.
  intros H. destruct u1 as [[v1 t1] r1]. cbn [fst snd] in H.
  assert (E : forall l, out (emit1 (v1, t1, r1) l) =
              flat_map (fun y => (fun (a : V2 * T) r2 => f v1 (fst a) (snd a) r1 r2) (fst y) (snd y)) (map (advance_to t1) l)).
  { intros l. unfold out. induction l as [|[[v2 t2] r2] l IH]; auto. cbn [emit1 map flat_map] in *. rewrite <- IH.
    cbn [fst snd advance_to fc]. rewrite (join_comm t2 t1). auto. }
  intros x. unfold w. rewrite !E. apply (flat_map_same_weights (A:=V2*T) (fun (a : V2 * T) r2 => f v1 (fst a) (snd a) r1 r2)); auto; intros; [apply (ba_0_r HB)|apply (ba_plus_r HB)].
Qed.
Lemma emit2_same (u2 : U2) (l1 l2 : list U1) : same_weights (A:=V1*T) (map (advance_to (snd (fst u2))) l1) (map (advance_to (snd (fst u2))) l2) ->
  forall x, w (emit2 u2 l1) x = w (emit2 u2 l2) x.
Proof.
  intros H. destruct u2 as [[v2 t2] r2]. cbn [fst snd] in H.
  assert (E : forall l, out (emit2 (v2, t2, r2) l) =
              flat_map (fun y => (fun (a : V1 * T) r1 => f (fst a) v2 (snd a) r1 r2) (fst y) (snd y)) (map (advance_to t2) l)).
  { intros l. unfold out. induction l as [|[[v1 t1] r1] l IH]; auto. cbn [emit2 map flat_map] in *. rewrite <- IH. auto. }
  intros x. unfold w. rewrite !E. apply (flat_map_same_weights (A:=V1*T) (fun (a : V1 * T) r1 => f (fst a) v2 (snd a) r1 r2)); auto; intros; [apply (ba_0_l HB)|apply (ba_plus_l HB)].
Qed.
End ThinkP.

(** A buffer stands for the updates already replayed, at every time the other history has left. *)
Section Stands.
Context {V V' T R R' : Type} {OV : Ord V} {TT : Time T} {DR : Diff R}.
Definition stands (buf done : list (V * T * R)) (rest' : list (V' * T * R')) : Prop :=
  Forall (fun u' => same_weights (A:=V*T) (map (advance_to (snd (fst u'))) buf) (map (advance_to (snd (fst u'))) done)) rest'.
Lemma stands_push buf done rest' u : stands buf done rest' -> stands (buf ++ [u]) (done ++ [u]) rest'.
Proof.
  unfold stands. intros H. eapply Forall_impl; [|exact H]. intros u' W. cbn beta in *. rewrite !map_app.
  apply same_weights_app; auto. apply same_weights_refl.
Qed.
Lemma stands_advance buf done rest' m : Forall (fun u' => tle m (snd (fst u')) = true) rest' -> stands buf done rest' ->
  stands (consolidate (A:=V*T) (map (advance_by_meet m) buf)) done rest'.
Proof.
  unfold stands. intros HM H. rewrite Forall_forall in *. intros u' Hu. specialize (HM _ Hu). specialize (H _ Hu). cbn beta in *.
  eapply same_weights_trans; [|exact H].
  eapply same_weights_trans; [apply (map_same_weights (B:=V*T) (fun a => (fst a, join (snd a) (snd (fst u')))) _ _ (consolidate_weight _))|].
  rewrite map_map. erewrite map_ext; [apply same_weights_refl|]. intros [[v t] r]. cbn. unfold advance_to. cbn.
  rewrite join_absorb_lower by auto. auto.
Qed.
End Stands.

Section Wave.
Context {V1 V2 T R1 R2 B S : Type} {OV1 : Ord V1} {OV2 : Ord V2} {TT : Time T} {D1 : Diff R1} {D2 : Diff R2}
  {OB : Ord B} {DS : Diff S}.
Variable f : V1 -> V2 -> T -> R1 -> R2 -> list (B * S).
Hypothesis HB : biadditive f.
Local Notation w := (w f).

Lemma wave1_ok h1 h2 (u1 : V1 * T * R1) rest1 (rest2 done2 : list (V2 * T * R2)) : replays h1 (u1 :: rest1) -> replays h2 rest2 ->
  stands (vh_buffer h2) done2 (u1 :: rest1) ->
  exists h1' h2' o, wave1 h1 h2 = Some (h1', h2', o) /\ replays h1' rest1 /\ replays h2' rest2 /\
    vh_buffer h1' = vh_buffer h1 ++ [u1] /\ stands (vh_buffer h2') done2 rest1 /\ (forall x, w o x = w (emit1 u1 done2) x).
Proof.
  intros R1' R2' S2. unfold wave1. pose proof (replays_meet _ _ R1') as M. destruct (vh_meet h1) as [m|]; [|discriminate].
  destruct M as [_ M]. pose proof (proj1 (M m) (tle_refl m)) as Hm. rewrite (replays_edit _ _ R1'). cbn [hd_error].
  destruct (replays_step _ _ _ R1') as (h1' & E & Bf & _ & R1''). rewrite E.
  pose proof (stands_advance _ _ _ m Hm S2) as S2'.
  do 3 eexists. split; [reflexivity|]. split; auto. split; [apply replays_advance; auto|]. split; auto.
  cbn [vh_advance_buffer_by vh_buffer]. inversion S2'; subst. split; auto. apply emit1_same; auto.
Qed.
Lemma wave2_ok h1 h2 (u2 : V2 * T * R2) rest2 (rest1 done1 : list (V1 * T * R1)) : replays h1 rest1 -> replays h2 (u2 :: rest2) ->
  stands (vh_buffer h1) done1 (u2 :: rest2) ->
  exists h1' h2' o, wave2 h1 h2 = Some (h1', h2', o) /\ replays h1' rest1 /\ replays h2' rest2 /\
    vh_buffer h2' = vh_buffer h2 ++ [u2] /\ stands (vh_buffer h1') done1 rest2 /\ (forall x, w o x = w (emit2 u2 done1) x).
Proof.
  intros R1' R2' S1. unfold wave2. pose proof (replays_meet _ _ R2') as M. destruct (vh_meet h2) as [m|]; [|discriminate].
  destruct M as [_ M]. pose proof (proj1 (M m) (tle_refl m)) as Hm. rewrite (replays_edit _ _ R2'). cbn [hd_error].
  destruct (replays_step _ _ _ R2') as (h2' & E & Bf & _ & R2''). rewrite E.
  pose proof (stands_advance _ _ _ m Hm S1) as S1'.
  do 3 eexists. split; [reflexivity|]. split; [apply replays_advance; auto|]. split; auto. split; auto.
  cbn [vh_advance_buffer_by vh_buffer]. inversion S1'; subst. split; auto. apply emit2_same; auto.
Qed.
Lemma stands_tail {V V' R R'} {OV : Ord V} {DR : Diff R} buf done (u : V' * T * R') rest :
  stands (V:=V) (R:=R) buf done (u :: rest) -> stands buf done rest.
Proof. intros H; inversion H; auto. Qed.

Lemma wave_ok : forall fuel h1 h2 rest1 rest2 done1 done2, length rest1 + length rest2 <= fuel ->
  replays h1 rest1 -> replays h2 rest2 -> stands (vh_buffer h1) done1 rest2 -> stands (vh_buffer h2) done2 rest1 ->
  exists calls, wave fuel h1 h2 = Some calls /\
    forall x, w calls x = dplus (w (cross rest1 done2) x) (dplus (w (cross done1 rest2) x) (w (cross rest1 rest2) x)).
Proof.
  induction fuel as [|fuel IH]; intros h1 h2 rest1 rest2 done1 done2 Hl R1' R2' S1 S2; cbn [wave];
    rewrite (replays_time _ _ R1'), (replays_time _ _ R2').
  - destruct rest1; [|simpl in Hl; lia]. destruct rest2; [|simpl in Hl; lia]. exists []. split; auto.
    intros x. simpl. unfold cross. simpl. replace (flat_map _ done1) with (@nil (V1*V2*T*R1*R2)) by (clear; induction done1; auto).
    rewrite !w_nil, !dplus_0_l. auto.
  - assert (GO1 : forall u1 rest, rest1 = u1 :: rest -> exists calls, (
             ' (h1, h2, out) <- wave1 h1 h2; rest <- wave fuel h1 h2; Some (out ++ rest)) = Some calls /\
      forall x, w calls x = dplus (w (cross rest1 done2) x) (dplus (w (cross done1 rest2) x) (w (cross rest1 rest2) x))).
    { intros u1 rest ->. destruct (wave1_ok _ _ _ _ _ _ R1' R2' S2) as (h1' & h2' & o & E & R1'' & R2'' & Bf & St & W). rewrite E.
      destruct (IH h1' h2' rest rest2 (done1 ++ [u1]) done2) as (calls & E2 & W2); auto; [simpl in Hl; lia|rewrite Bf; apply stands_push; auto|].
      rewrite E2. exists (o ++ calls). split; auto. intros x. rewrite w_app, W, W2.
      change (u1 :: rest) with ([u1] ++ rest). rewrite !w_cross_app_l, !w_cross_one_l. dperm. }
    assert (GO2 : forall u2 rest, rest2 = u2 :: rest -> exists calls, (
             ' (h1, h2, out) <- wave2 h1 h2; rest <- wave fuel h1 h2; Some (out ++ rest)) = Some calls /\
      forall x, w calls x = dplus (w (cross rest1 done2) x) (dplus (w (cross done1 rest2) x) (w (cross rest1 rest2) x))).
    { intros u2 rest ->. destruct (wave2_ok _ _ _ _ _ _ R1' R2' S1) as (h1' & h2' & o & E & R1'' & R2'' & Bf & St & W). rewrite E.
      destruct (IH h1' h2' rest1 rest done1 (done2 ++ [u2])) as (calls & E2 & W2); auto; [simpl in Hl; lia|rewrite Bf; apply stands_push; auto|].
      rewrite E2. exists (o ++ calls). split; auto. intros x. rewrite w_app, W, W2.
      change (u2 :: rest) with ([u2] ++ rest). rewrite !w_cross_app_r, !w_cross_one_r. dperm. }
    destruct rest1 as [|u1 rest1], rest2 as [|u2 rest2]; cbn [hd_error option_map].
    + exists []. split; auto. intros x. unfold cross. simpl. replace (flat_map _ done1) with (@nil (V1*V2*T*R1*R2)) by (clear; induction done1; auto).
      rewrite !w_nil, !dplus_0_l. auto.
    + eapply GO2; eauto.
    + eapply GO1; eauto.
    + destruct (ltb _ _); [eapply GO1|eapply GO2]; eauto.
Qed.

Lemma w_perm c1 c2 x : Permutation c1 c2 -> w c1 x = w c2 x.
Proof. intros H. unfold ThinkP.w, out. apply weight_perm. apply Permutation_flat_map; auto. Qed.
Lemma w_cross_perm a a' b b' x : Permutation a a' -> Permutation b b' -> w (cross a b) x = w (cross a' b') x.
Proof.
  intros Ha Hb. transitivity (w (cross a' b) x).
  - apply w_perm. apply Permutation_flat_map; auto.
  - clear Ha. induction a' as [|u a' IH]; auto. change (u :: a') with ([u] ++ a'). rewrite !w_cross_app_l, IH. f_equal.
    rewrite !w_cross_one_l. apply w_perm. unfold emit1. apply Permutation_map; auto.
Qed.

Lemma wave_built el1 el2 us1 us2 : el_map el1 = Some us1 -> el_map el2 = Some us2 ->
  exists h1 h2 calls, vh_build el1 = Some h1 /\ vh_build el2 = Some h2 /\
    wave (length (vh_history h1) + length (vh_history h2)) h1 h2 = Some calls /\ forall x, w calls x = w (cross us1 us2) x.
Proof.
  intros M1 M2. destruct (vh_build_ok _ _ M1) as (h1 & us1' & E1 & B1 & _ & P1 & R1').
  destruct (vh_build_ok _ _ M2) as (h2 & us2' & E2 & B2 & _ & P2 & R2').
  destruct (wave_ok (length (vh_history h1) + length (vh_history h2)) h1 h2 us1' us2' [] []) as (calls & E & W); auto.
  - rewrite (replays_length _ _ R1'), (replays_length _ _ R2'). auto.
  - rewrite B1. apply Forall_forall. intros; apply same_weights_refl.
  - rewrite B2. apply Forall_forall. intros; apply same_weights_refl.
  - exists h1, h2, calls. repeat split; auto. intros x. rewrite W.
    replace (cross us1' []) with (@nil (V1*V2*T*R1*R2)) by (clear; induction us1'; auto).
    change (cross [] us2') with (@nil (V1*V2*T*R1*R2)). rewrite !w_nil, !dplus_0_l.
    apply w_cross_perm; auto.
Qed.

Lemma mapM_total {A C} (g : A -> C) l : mapM (fun x => Some (g x)) l = Some (map g l).
Proof. induction l; simpl; auto. rewrite IHl; auto. Qed.
Lemma think_ok el1 el2 us1 us2 : el_map el1 = Some us1 -> el_map el2 = Some us2 ->
  exists calls, think el1 el2 = Some calls /\ forall x, w calls x = w (cross us1 us2) x.
Proof.
  intros M1 M2. unfold think. destruct (_ || _).
  - rewrite M1, M2. rewrite mapM_total. eexists; split; [reflexivity|]. intros x. unfold cross. rewrite flat_map_concat_map. auto.
  - destruct (wave_built _ _ _ _ M1 M2) as (h1 & h2 & calls & E1 & E2 & E & W). rewrite E1, E2, E. eauto.
Qed.
End Wave.
