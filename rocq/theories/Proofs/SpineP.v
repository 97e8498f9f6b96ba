(** Invariants of the spine: the sizes and pace of merges, and what the batches mean. *)
From Verif Require Import Base.Collections Spec.BatchLaws Proofs.LatticeP Proofs.DescriptionP.

Section SpineP.
Context {B M D T R : Type} {OD : Ord D} {TT : Time T} {DR : Diff R}.
Variable ops : BatchOps B M T.
Variable contents : B -> list (D * T * R).
Variable laws : BatchLaws ops contents.

Notation lower_of := (lower_of ops). Notation upper_of := (upper_of ops). Notation since_of := (since_of ops).
Notation ok := (bl_ok _ _ laws). Notation merging_ok := (bl_merging _ _ laws).
Notation len := (b_len ops).
Notation proper := (proper ops contents laws). Notation tiles := (tiles ops).
Notation begin_merge := (begin_merge ops). Notation ms_work := (ms_work ops). Notation ms_complete := (ms_complete ops).
Notation insert_at := (insert_at ops). Notation complete_at := (complete_at ops).
Notation apply_fuel_from := (apply_fuel_from ops). Notation apply_fuel := (apply_fuel ops).
Notation roll_loop := (roll_loop ops). Notation roll_up := (roll_up ops).
Notation tidy_loop := (tidy_loop ops). Notation tidy_layers := (tidy_layers ops).
Notation introduce_batch := (introduce_batch ops). Notation consider_one := (consider_one ops).
Notation consider_loop := (consider_loop ops).
Notation mst := (mstate B M).

(** ** Sequences of batches, oldest first *)
Definition seq (ms : list mst) : list B := flat_map layer_batches (rev ms).
Definition ol (o : option B) : list B := match o with Some b => [b] | None => [] end.
Definition olen (o : option B) : nat := match o with Some b => len b | None => 0 end.

Lemma seq_app lo hi : seq (lo ++ hi) = seq hi ++ seq lo.
Proof. unfold seq. rewrite rev_app_distr, flat_map_app. reflexivity. Qed.
Lemma seq_cons x l : seq (x :: l) = seq l ++ layer_batches x.
Proof. change (x :: l) with ([x] ++ l). rewrite seq_app. f_equal. unfold seq. simpl. apply app_nil_r. Qed.
Lemma seq_mid lo x hi : seq (lo ++ x :: hi) = seq hi ++ layer_batches x ++ seq lo.
Proof. rewrite seq_app, seq_cons, <- app_assoc. reflexivity. Qed.
Lemma seq_vacant n : seq (repeat Vacant n) = [].
Proof. induction n; [reflexivity|]. simpl repeat. rewrite seq_cons, IHn. reflexivity. Qed.

(** ** What a batch stands for: a consecutive group of the inserted batches *)
Record covers (L : list T) (b : B) (g : list B) : Prop := {
  cv_ok : ok b;
  cv_spans : spans ops b;
  cv_lower : exists x r, g = x :: r /\ same_future (lower_of b) (lower_of x);
  cv_upper : exists i y, g = i ++ [y] /\ same_future (upper_of b) (upper_of y);
  cv_since : forall t, beyond L t -> beyond (since_of b) t;
  cv_same : alike (since_of b) (contents b) (flat_map contents g)
}.

Definition cov (L : list T) (h : list B) (Bs : list B) : Prop :=
  exists gs, concat gs = h /\ Forall2 (covers L) Bs gs.

Lemma same_future_refl (F : list T) : same_future F F.
Proof. intros t; tauto. Qed.
Lemma same_future_sym (F G : list T) : same_future F G -> same_future G F.
Proof. intros H t; symmetry; apply H. Qed.
Lemma same_future_trans (F G H : list T) : same_future F G -> same_future G H -> same_future F H.
Proof. intros H1 H2 t; rewrite (H1 t); apply H2. Qed.

Lemma covers_self L b : ok b -> spans ops b -> (forall t, beyond L t -> beyond (since_of b) t) -> covers L b [b].
Proof.
  intros H1 H1' H2. constructor; auto.
  - exists b, []; auto using same_future_refl.
  - exists [], b; auto using same_future_refl.
  - simpl. rewrite app_nil_r. apply alike_refl.
Qed.

Lemma cov_mono L L' h Bs : (forall t, beyond L' t -> beyond L t) -> cov L h Bs -> cov L' h Bs.
Proof.
  intros HL (gs & E & H). exists gs; split; auto. clear E.
  induction H as [|b g Bs gs [] H IH]; constructor; auto. constructor; auto.
Qed.

Lemma cov_nil L : cov L [] [].
Proof. exists []; split; auto. Qed.

Lemma cov_app L h1 h2 Bs1 Bs2 : cov L h1 Bs1 -> cov L h2 Bs2 -> cov L (h1 ++ h2) (Bs1 ++ Bs2).
Proof.
  intros (g1 & E1 & H1) (g2 & E2 & H2). exists (g1 ++ g2). rewrite concat_app, E1, E2. split; auto. apply Forall2_app; auto.
Qed.

Lemma cov_one L b : ok b -> spans ops b -> (forall t, beyond L t -> beyond (since_of b) t) -> cov L [b] [b].
Proof. intros H1 H1' H2. exists [[b]]. split; auto. constructor; auto. apply covers_self; auto. Qed.

Lemma covers_app L b1 b2 g1 g2 b s : covers L b1 g1 -> covers L b2 g2 ->
  ok b -> spans ops b -> same_future (lower_of b) (lower_of b1) -> same_future (upper_of b) (upper_of b2) -> since_of b = s ->
  (forall t, beyond s t -> beyond (since_of b1) t /\ beyond (since_of b2) t) ->
  (forall t, beyond L t -> beyond s t) ->
  alike s (contents b) (contents b1 ++ contents b2) -> covers L b (g1 ++ g2).
Proof.
  intros [K1 _ (x & r & E1 & F1) (i1 & y1 & _) _ S1] [K2 _ (x2 & r2 & _) (i & y & E2 & F2) _ S2] Hb Hsp El Eu Es Hs HL HS. subst s. constructor; auto.
  - exists x, (r ++ g2). rewrite E1. split; [reflexivity|eapply same_future_trans; eauto].
  - exists (g1 ++ i), y. rewrite E2, app_assoc. split; [reflexivity|eapply same_future_trans; eauto].
  - rewrite flat_map_app. eapply alike_trans; [exact HS|]. apply alike_app.
    + eapply alike_mono; [|exact S1]. intros t Ht. apply Hs; auto.
    + eapply alike_mono; [|exact S2]. intros t Ht. apply Hs; auto.
Qed.

Lemma cov_split L h Bs1 Bs2 : cov L h (Bs1 ++ Bs2) -> exists h1 h2, h = h1 ++ h2 /\ cov L h1 Bs1 /\ cov L h2 Bs2.
Proof.
  intros (gs & E & H). apply Forall2_app_inv_l in H. destruct H as (g1 & g2 & H1 & H2 & Eg). subst gs.
  rewrite concat_app in E. exists (concat g1), (concat g2). split; auto. split; [exists g1|exists g2]; auto.
Qed.

Lemma cov_covers L h b : cov L h [b] -> covers L b h.
Proof.
  intros (gs & E & H). inversion H as [|? g ? gs' H1 H2]; subst. inversion H2; subst. simpl. rewrite app_nil_r. auto.
Qed.

Lemma covers_cov L h b : covers L b h -> cov L h [b].
Proof. intros H. exists [h]. simpl. rewrite app_nil_r. auto. Qed.

Lemma cov_in L h pre b post : cov L h (pre ++ b :: post) -> exists g, covers L b g /\ (forall x, In x g -> In x h).
Proof.
  intros H. destruct (cov_split _ _ _ _ H) as (h1 & h2 & E & _ & H2).
  destruct (cov_split _ _ [b] post H2) as (h3 & h4 & E2 & H3 & _). exists h3. split; [apply cov_covers; auto|].
  intros x Hx. subst. apply in_or_app; right; apply in_or_app; left; auto.
Qed.

(** ** Tilings *)
Lemma tiles_app lo h1 h2 up : tiles lo (h1 ++ h2) up -> exists mid, tiles lo h1 mid /\ tiles mid h2 up.
Proof.
  revert lo; induction h1 as [|b h1 IH]; intros lo H; simpl in *.
  - exists lo; split; auto. constructor. apply same_future_refl.
  - inversion H as [|? ? ? ? H1 H2]; subst. destruct (IH _ H2) as (mid & A1 & A2). exists mid; split; auto. constructor; auto.
Qed.

Lemma tiles_snoc lo h up b : tiles lo h up -> same_future up (lower_of b) -> tiles lo (h ++ [b]) (upper_of b).
Proof. induction 1 as [|]; intros H1; simpl; constructor; auto; [eapply same_future_trans; eauto|constructor; apply same_future_refl]. Qed.

Lemma tiles_last lo h b up : tiles lo (h ++ [b]) up -> same_future up (upper_of b).
Proof.
  intros H. destruct (tiles_app _ _ _ _ H) as (mid & _ & H2). inversion H2 as [|? ? ? ? _ H3]; subst. inversion H3; subst. apply same_future_sym; auto.
Qed.
Lemma tiles_up lo h up up' : tiles lo h up -> same_future up up' -> tiles lo h up'.
Proof. induction 1; intros HS; constructor; auto. eapply same_future_trans; eauto. Qed.

Lemma tiles_fun h : forall lo a b, tiles lo h a -> tiles lo h b -> same_future a b.
Proof.
  induction h as [|x h IH]; intros lo a b H1 H2; inversion H1; inversion H2; subst; [|eapply IH; eauto].
  eapply same_future_trans; [apply same_future_sym; eassumption|assumption].
Qed.
Lemma tiles_cat a : forall lo mid b up, tiles lo a mid -> tiles mid b up -> tiles lo (a ++ b) up.
Proof.
  induction a as [|x a IH]; intros lo mid b up H1 H2; inversion H1 as [? ? H0|? ? ? ? H3 H4]; subst; cbn [app].
  - destruct b as [|y b]; inversion H2 as [? ? H5|? ? ? ? H5 H6]; subst; constructor; eauto using same_future_trans.
  - constructor; eauto.
Qed.
Lemma tiles_lo lo lo' h up : tiles lo h up -> same_future lo lo' -> tiles lo' h up.
Proof. intros H HS. apply same_future_sym in HS. destruct H; constructor; auto; eapply same_future_trans; eauto. Qed.
Lemma proper_spans b : proper b -> spans ops b.
Proof. intros []. split; auto. Qed.

Section History.
Variables (h : list B) (lo0 up0 : list T).
Hypothesis Htiles : tiles lo0 h up0.
Hypothesis Hproper : Forall proper h.

Lemma cov_adjacent L pre b1 b2 post : cov L h (pre ++ b1 :: b2 :: post) ->
  same_future (upper_of b1) (lower_of b2) /\ lower_of b1 <> [] /\ ok b1 /\ ok b2 /\ spans ops b1 /\ spans ops b2.
Proof.
  intros H. destruct (cov_split _ _ _ _ H) as (h1 & h2 & E & _ & H2).
  destruct (cov_split _ _ [b1] (b2 :: post) H2) as (g1 & h3 & E2 & C1 & H3).
  destruct (cov_split _ _ [b2] post H3) as (g2 & h4 & E3 & C2 & _).
  apply cov_covers in C1, C2. destruct C1 as [O1 Sp1 (x & r & Ex & Lx) (i & y & Ey & Uy) _ _].
  destruct C2 as [O2 Sp2 (x2 & r2 & Ex2 & Lx2) _ _ _].
  assert (HP : forall z, In z g1 \/ In z g2 -> proper z).
  { intros z Hz. rewrite Forall_forall in Hproper. apply Hproper. subst h h2 h3.
    rewrite !in_app_iff. tauto. }
  assert (Px : proper x) by (apply HP; left; rewrite Ex; left; auto).
  assert (Py : proper y) by (apply HP; left; rewrite Ey; apply in_or_app; right; left; auto).
  assert (Px2 : proper x2) by (apply HP; right; rewrite Ex2; left; auto).
  split; [|split; [|auto]].
  - eapply same_future_trans; [exact Uy|]. eapply same_future_trans; [|apply same_future_sym; exact Lx2].
    assert (EH : h = (h1 ++ i) ++ [y] ++ (x2 :: r2 ++ h4)).
    { subst h h2 h3. rewrite Ey, Ex2, <- !app_assoc. reflexivity. }
    pose proof Htiles as Ht. rewrite EH in Ht. destruct (tiles_app _ _ _ _ Ht) as (mid & _ & Ht1).
    simpl in Ht1. inversion Ht1 as [|? ? ? ? _ Ht2]; subst. inversion Ht2; subst; auto.
  - intros E0. apply (pr_nonempty _ _ _ _ Px). destruct (lower_of x) as [|t l] eqn:El; auto. exfalso. apply (beyond_nil (T:=T) t). rewrite <- E0.
    apply Lx. exists t. split; [left; auto|apply tle_refl].
Qed.

(** ** Layers *)
Definition mass (k : nat) (x : mst) : nat := match x with Vacant => 0 | Single _ => 2 ^ k | _ => 2 * 2 ^ k end.
Lemma smaller_cons k x ms : smaller_from k (x :: ms) = mass k x + smaller_from (S k) ms.
Proof. destruct x; reflexivity. Qed.
Lemma smaller_app (ms1 : list mst) : forall k ms2, smaller_from k (ms1 ++ ms2) = smaller_from k ms1 + smaller_from (k + length ms1) ms2.
Proof.
  induction ms1 as [|x ms1 IH]; intros k ms2.
  - simpl. f_equal; lia.
  - rewrite <- app_comm_cons, !smaller_cons, IH. simpl length. replace (S k + length ms1) with (k + S (length ms1)) by lia. lia.
Qed.
Lemma smaller_vacant n : forall k, smaller_from k (repeat (@Vacant B M) n) = 0.
Proof. induction n; intros k; simpl; auto. Qed.

Lemma pow_pos k : 1 <= 2 ^ k.
Proof. induction k; simpl; lia. Qed.
Lemma pow_S k : 2 ^ (S k) = 2 * 2 ^ k.
Proof. reflexivity. Qed.

Definition layer_ok (L : list T) (k below F : nat) (x : mst) : Prop :=
  match x with
  | Vacant => True
  | Single o => olen o <= 2 ^ k
  | InProgress b1 b2 m => exists s r, merging_ok m b1 b2 s r /\
      (forall t, beyond s t -> beyond (since_of b1) t /\ beyond (since_of b2) t) /\ (forall t, beyond L t -> beyond s t) /\
      len b1 <= 2 ^ k /\ len b2 <= 2 ^ k /\ r <= len b1 + len b2 /\ r + F + 4 * below <= 4 * 2 ^ k /\ below < 2 ^ k
  | Complete o => olen o <= 2 * 2 ^ k /\ below < 2 ^ k
  end.

Fixpoint winv (L : list T) (F k below : nat) (ms : list mst) : Prop :=
  match ms with
  | [] => True
  | x :: ms => layer_ok L k below F x /\ winv L F (S k) (below + mass k x) ms
  end.

Lemma winv_app L F : forall lo k c hi, winv L F k c (lo ++ hi) <-> winv L F k c lo /\ winv L F (k + length lo) (c + smaller_from k lo) hi.
Proof.
  induction lo as [|x lo IH]; intros k c hi.
  - simpl. rewrite !Nat.add_0_r. tauto.
  - rewrite <- app_comm_cons. cbn [winv length]. rewrite IH, smaller_cons.
    replace (S k + length lo) with (k + S (length lo)) by lia. replace (c + mass k x + smaller_from (S k) lo) with (c + (mass k x + smaller_from (S k) lo)) by lia. tauto.
Qed.

Lemma layer_ok_less L k c c' F F' x : F' + 4 * c' <= F + 4 * c -> c' <= c -> layer_ok L k c F x -> layer_ok L k c' F' x.
Proof.
  intros H1 H2. destruct x as [|o|b1 b2 m|o]; simpl; auto.
  - intros (s & r & A1 & A2 & A3 & A4 & A5 & A6 & A7 & A8). exists s, r. repeat (split; auto); lia.
  - intros [A1 A2]. split; auto; lia.
Qed.

Lemma winv_less L F F' : forall ms k c c', F' + 4 * c' <= F + 4 * c -> c' <= c -> winv L F k c ms -> winv L F' k c' ms.
Proof.
  induction ms as [|x ms IH]; intros k c c' H1 H2; simpl; auto.
  intros [H3 H4]. split; [eapply layer_ok_less; [| |exact H3]; lia|]. eapply IH; [| |exact H4]; lia.
Qed.

Lemma layer_ok_L L L' k c F x : (forall t, beyond L' t -> beyond L t) -> layer_ok L k c F x -> layer_ok L' k c F x.
Proof.
  intros HL. destruct x; simpl; auto. intros (s & r & A1 & A2 & A3 & A4). exists s, r. split; auto.
Qed.
Lemma winv_L L L' F : forall ms k c, (forall t, beyond L' t -> beyond L t) -> winv L F k c ms -> winv L' F k c ms.
Proof. induction ms as [|x ms IH]; intros k c HL; simpl; auto. intros [H1 H2]; split; [eapply layer_ok_L; eauto|auto]. Qed.

Definition no_complete (x : mst) : Prop := is_complete x = false.

(** room for a merge that grows the mass below a layer *)
Lemma layer_ok_room L k c c' F F' x : no_complete x -> F' + 4 * c' + 4 <= F + 4 * c -> layer_ok L k c F x -> layer_ok L k c' F' x.
Proof.
  intros HN H1. destruct x as [|o|b1 b2 m|o]; simpl; auto.
  - intros (s & r & A1 & A2 & A3 & A4 & A5 & A6 & A7 & A8). exists s, r. repeat (split; auto); lia.
  - discriminate HN.
Qed.
Lemma winv_room L F F' : forall ms k c c', Forall no_complete ms -> F' + 4 * c' + 4 <= F + 4 * c -> winv L F k c ms -> winv L F' k c' ms.
Proof.
  induction ms as [|x ms IH]; intros k c c' HN H1; simpl; auto. inversion HN; subst.
  intros [G3 G4]. split; [eapply layer_ok_room; [| |exact G3]; auto|]. eapply IH; [| |exact G4]; auto; lia.
Qed.

(** *** Starting a merge *)
Definition insm (L : list T) (y : mst) (o : option B) : option mst :=
  match y with Vacant => Some (Single o) | Single old => begin_merge old o L | _ => None end.

Lemma insm_ok L y o pre post k c F :
  is_double y = false -> cov L h (pre ++ layer_batches y ++ ol o ++ post) ->
  layer_ok L k c F y -> olen o <= 2 ^ k -> 2 * c <= 2 ^ k ->
  exists y', insm L y o = Some y' /\ layer_batches y' = layer_batches y ++ ol o /\ mass k y' = mass k y + 2 ^ k /\
    layer_ok L k c 0 y' /\ is_vacant y' = false /\ is_double y' = negb (is_vacant y) /\ (is_vacant y = true -> y' = Single o).
Proof.
  intros HD HC HL Ho Hc. pose proof (pow_pos k) as Hp. destruct y as [|old|b1 b2 m|o']; try discriminate HD.
  - exists (Single o). simpl. split; auto. split; [destruct o; auto|]. split; [lia|]. auto.
  - destruct old as [b1|], o as [b2|].
    + simpl in HC. destruct (cov_adjacent L pre b1 b2 post HC) as (HSF & HN & O1 & O2 & Sp1 & Sp2).
      assert (HSi : forall t, beyond L t -> beyond (since_of b1) t /\ beyond (since_of b2) t).
      { intros t Ht. split.
        - destruct (cov_in L h pre b1 (b2 :: post) HC) as (g & [] & _). auto.
        - destruct (cov_in L h (pre ++ [b1]) b2 post) as (g & [] & _); auto. rewrite <- app_assoc. exact HC. }
      assert (E : ac_eqb (upper_of b1) (lower_of b2) = true) by (apply ac_eqb_spec; [apply Sp1|apply Sp2|auto]).
      destruct (bl_begin _ _ laws b1 b2 L O1 O2 Sp1 Sp2 HSF HN HSi) as (m & s & r & Em & HM & Hr & AS & AL).
      exists (InProgress b1 b2 m). unfold insm, SpineM.begin_merge. fold (upper_of b1). fold (lower_of b2). rewrite E, Em.
      split; auto. split; auto. split; [simpl; lia|]. simpl in HL, Ho.
      split; [|split; [auto|split; [auto|discriminate]]].
      exists s, r. repeat (split; auto); lia.
    + exists (Complete (Some b1)). simpl in *. repeat split; auto; try lia; try discriminate.
    + exists (Complete (Some b2)). simpl in *. repeat split; auto; try lia; try discriminate.
    + exists (Complete None). simpl in *. repeat split; auto; try lia; try discriminate.
Qed.

(** *** Working *)
Lemma work_ok L x pre post k c F :
  cov L h (pre ++ layer_batches x ++ post) -> layer_ok L k c 0 x ->
  exists x', ms_work x (Z.of_nat F) = Some x' /\ cov L h (pre ++ layer_batches x' ++ post) /\ mass k x' = mass k x /\
    is_vacant x' = is_vacant x /\ is_double x' = is_double x /\
    (is_complete x' = false -> layer_ok L k c F x') /\ layer_ok L k c 0 x' /\
    (is_complete x = true -> x' = x).
Proof.
  intros HC HL. destruct x as [|o|b1 b2 m|o].
  - exists Vacant. repeat (split; auto).
  - exists (Single o). repeat (split; auto).
  - destruct HL as (s & r & HM & Hs & HLs & A4 & A5 & A6 & A7 & A8).
    destruct (bl_work _ _ laws m b1 b2 s r (Z.of_nat F) HM) as (m' & rest & E & W1 & W2 & W3).
    unfold SpineM.ms_work. rewrite E. destruct (0 <? rest)%Z eqn:El.
    + apply Z.ltb_lt in El. destruct (W3 El) as (bm & Ebm & O & Sp & Lo & Up & Si & Le & Sa). rewrite Ebm. exists (Complete (Some bm)).
      split; auto. split.
      { simpl in HC |- *. destruct (cov_split _ _ _ _ HC) as (h1 & h2 & Eh & C1 & C2).
        destruct (cov_split _ _ [b1] (b2 :: post) C2) as (g1 & h3 & Eh2 & C3 & C4).
        destruct (cov_split _ _ [b2] post C4) as (g2 & h4 & Eh3 & C5 & C6). rewrite Eh. apply cov_app; auto.
        rewrite Eh2, Eh3, app_assoc. apply (cov_app L _ _ [bm]); auto. apply covers_cov.
        apply cov_covers in C3, C5. eapply covers_app; eauto. }
      split; auto. split; auto. split; auto. split; [discriminate|]. simpl. split; [split; auto; lia|discriminate].
    + apply Z.ltb_ge in El. destruct (W2 El) as (r' & HM' & Hr'). exists (InProgress b1 b2 m').
      split; auto. split; auto. split; auto. split; auto. split; auto.
      split; [|split; [|discriminate]]; [intros _|]; exists s, r'; repeat (split; auto); lia.
  - exists (Complete o). repeat (split; auto); try discriminate; apply HL.
Qed.

Lemma complete_ok L x pre post k c F :
  cov L h (pre ++ layer_batches x ++ post) -> layer_ok L k c F x ->
  exists o, ms_complete x = Some o /\ cov L h (pre ++ ol o ++ post) /\ olen o <= mass k x /\
    (is_complete x = true -> x = Complete o) /\ olen o <= ms_len ops x.
Proof.
  intros HC HL. destruct x as [|o|b1 b2 m|o].
  - exists None. repeat (split; auto); try discriminate; simpl; lia.
  - exists o. split; auto. split; [destruct o; auto|]. split; [apply HL|]. split; [discriminate|]. destruct o; simpl; lia.
  - pose proof HL as (s & r & HM & Hs & HLs & A4 & A5 & A6 & A7 & A8).
    destruct (bl_work _ _ laws m b1 b2 s r (Z.of_nat (len b1 + len b2) + 1) HM) as (m' & rest & E & W1 & W2 & W3).
    unfold SpineM.ms_complete, SpineM.ms_work. rewrite E. assert (El : (0 < rest)%Z) by (apply W1; lia).
    rewrite (proj2 (Z.ltb_lt _ _) El). destruct (W3 El) as (bm & Ebm & O & Sp & Lo & Up & Si & Le & Sa). rewrite Ebm.
    exists (Some bm). split; auto. split.
    { simpl in HC |- *. destruct (cov_split _ _ _ _ HC) as (h1 & h2 & Eh & C1 & C2).
      destruct (cov_split _ _ [b1] (b2 :: post) C2) as (g1 & h3 & Eh2 & C3 & C4).
      destruct (cov_split _ _ [b2] post C4) as (g2 & h4 & Eh3 & C5 & C6). rewrite Eh. apply cov_app; auto.
      rewrite Eh2, Eh3, app_assoc. apply (cov_app L _ _ [bm]); auto. apply covers_cov.
      apply cov_covers in C3, C5. eapply covers_app; eauto. }
    simpl. split; [lia|]. split; [discriminate|lia].
  - exists o. split; auto. split; [destruct o; auto|]. split; [apply HL|]. split; [auto|destruct o; simpl; lia].
Qed.

(** *** Lists of layers *)
Lemma get_mid {A} (lo : list A) x hi : get (lo ++ x :: hi) (length lo) = Some x.
Proof. unfold get. rewrite nth_error_app2 by lia. rewrite Nat.sub_diag. reflexivity. Qed.
Lemma put_mid {A} (lo : list A) x hi v : put (lo ++ x :: hi) (length lo) v = Some (lo ++ v :: hi).
Proof.
  unfold put. rewrite app_length. simpl. destruct (Nat.ltb_spec (length lo) (length lo + S (length hi))); [|lia]. f_equal.
  clear H. induction lo as [|z lo IH]; simpl; auto. f_equal; auto.
Qed.
Lemma grow_enough (ms : list mst) i : i < length ms -> grow ms i = ms.
Proof. intros H. unfold grow. replace (S i - length ms) with 0 by lia. apply app_nil_r. Qed.

Lemma insert_at_mid L lo y hi o : insert_at L (lo ++ y :: hi) o (length lo) = (y' <- insm L y o; Some (lo ++ y' :: hi)).
Proof.
  unfold SpineM.insert_at. rewrite grow_enough by (rewrite app_length; simpl; lia). rewrite get_mid.
  destruct y as [|old|b1 b2 m|o']; simpl insm; auto; [apply put_mid|]. destruct (begin_merge old o L); auto. apply put_mid.
Qed.
Lemma insert_at_end L lo o : insert_at L lo o (length lo) = Some (lo ++ [Single o]).
Proof.
  unfold SpineM.insert_at, grow. replace (S (length lo) - length lo) with 1 by lia. simpl repeat. rewrite get_mid. apply put_mid.
Qed.
Lemma complete_at_mid lo x hi : complete_at (lo ++ x :: hi) (length lo) = (o <- ms_complete x; Some (lo ++ Vacant :: hi, o)).
Proof. unfold SpineM.complete_at. rewrite get_mid. destruct (ms_complete x); auto. rewrite put_mid. reflexivity. Qed.

Lemma insert_at_mid' L lo y hi o i : length lo = i -> insert_at L (lo ++ y :: hi) o i = (y' <- insm L y o; Some (lo ++ y' :: hi)).
Proof. intros <-. apply insert_at_mid. Qed.
Lemma insert_at_end' L lo o i : length lo = i -> insert_at L lo o i = Some (lo ++ [Single o]).
Proof. intros <-. apply insert_at_end. Qed.
Lemma complete_at_mid' lo x hi i : length lo = i -> complete_at (lo ++ x :: hi) i = (o <- ms_complete x; Some (lo ++ Vacant :: hi, o)).
Proof. intros <-. apply complete_at_mid. Qed.
Lemma get_mid' {A} (lo : list A) x hi i : length lo = i -> get (lo ++ x :: hi) i = Some x.
Proof. intros <-. apply get_mid. Qed.
Lemma put_mid' {A} (lo : list A) x hi v i : length lo = i -> put (lo ++ x :: hi) i v = Some (lo ++ v :: hi).
Proof. intros <-. apply put_mid. Qed.

(** the top layer is in use *)
Definition topok (ms : list mst) : Prop := ms = [] \/ exists l x, ms = l ++ [x] /\ is_vacant x = false.

Lemma topok_app l x : is_vacant x = false -> topok (l ++ [x]).
Proof. right; eauto. Qed.
Lemma topok_tail lo hi : hi <> [] -> (topok (lo ++ hi) <-> topok hi).
Proof.
  intros Hh. split.
  - intros [E|(l & x & E & Hx)].
    + apply app_eq_nil in E; tauto.
    + destruct (exists_last Hh) as (hi' & z & Ez). subst hi. rewrite app_assoc in E. apply app_inj_tail in E. destruct E; subst. apply topok_app; auto.
  - intros [E|(l & x & E & Hx)]; [contradiction|]. subst hi. rewrite app_assoc. apply topok_app; auto.
Qed.

Lemma topok_down lo hi : topok (lo ++ hi) -> hi <> [] -> topok hi.
Proof. intros H1 H2. apply (topok_tail lo hi H2); auto. Qed.
Lemma topok_up lo hi : topok hi -> hi <> [] -> topok (lo ++ hi).
Proof. intros H1 H2. apply (topok_tail lo hi H2); auto. Qed.

(** *** apply_fuel *)
Lemma apply_fuel_ok L F post : forall n lo hi, length hi = n ->
  winv L F 0 0 lo -> Forall no_complete lo -> winv L 0 (length lo) (smaller_from 0 lo) hi ->
  cov L h (seq (lo ++ hi) ++ post) -> topok (lo ++ hi) ->
  exists ms', apply_fuel_from n (length lo) L (lo ++ hi) (Z.of_nat F) = Some ms' /\
    winv L F 0 0 ms' /\ Forall no_complete ms' /\ cov L h (seq ms' ++ post) /\ topok ms' /\
    smaller_from 0 ms' = smaller_from 0 (lo ++ hi).
Proof.
  induction n as [|n IH]; intros lo hi Hn HW HN HH HC HT.
  { destruct hi; [|discriminate]. rewrite app_nil_r in *. exists lo. simpl. repeat (split; auto). }
  destruct hi as [|x hi]; [discriminate|]. simpl in Hn. injection Hn as Hn. destruct HH as [HX HH].
  cbn [SpineM.apply_fuel_from]. rewrite get_mid.
  rewrite seq_mid, <- !app_assoc in HC.
  destruct (work_ok L x (seq hi) (seq lo ++ post) (length lo) (smaller_from 0 lo) F HC HX) as (x' & Ex & HC' & Hm & Hv & Hd & HF & H0 & Hid).
  rewrite Ex, put_mid. destruct (is_complete x') eqn:Ec.
  - rewrite complete_at_mid. destruct (complete_ok L x' (seq hi) (seq lo ++ post) _ _ _ HC' H0) as (o & Eo & HCo & Hol & Hx' & _).
    rewrite Eo. specialize (Hx' Ec). subst x'. destruct H0 as [Hs Hb]. simpl in Hol. simpl in Hm.
    assert (Evac : length lo + 1 = length (lo ++ [@Vacant B M])) by (rewrite app_length; reflexivity).
    assert (HWl : winv L F 0 0 (lo ++ [Vacant])). { apply winv_app. split; auto. simpl; auto. }
    assert (HNl : Forall no_complete (lo ++ [Vacant])). { apply Forall_app; split; auto. constructor; auto. reflexivity. }
    assert (HSl : smaller_from 0 (lo ++ [@Vacant B M]) = smaller_from 0 lo). { rewrite smaller_app. simpl; lia. }
    assert (HQl : seq (lo ++ [@Vacant B M]) = seq lo). { rewrite seq_mid. reflexivity. }
    replace (lo ++ Vacant :: hi) with ((lo ++ [Vacant]) ++ hi) by (rewrite <- app_assoc; reflexivity).
    rewrite Evac. destruct hi as [|y hi].
    + rewrite app_nil_r, insert_at_end. destruct n; [|discriminate]. cbn [SpineM.apply_fuel_from]. eexists. split; [reflexivity|].
      assert (Ep : 2 ^ length (lo ++ [@Vacant B M]) = 2 * 2 ^ length lo). { rewrite app_length, Nat.add_1_r. reflexivity. }
      split; [apply winv_app; split; auto; cbn [winv layer_ok]; rewrite Nat.add_0_l, Ep; auto|].
      split; [apply Forall_app; split; auto; constructor; auto; reflexivity|].
      split; [|split; [apply topok_app; auto|]].
      * rewrite seq_mid, HQl, <- app_assoc. destruct o; exact HCo.
      * rewrite (smaller_app (lo ++ [Vacant])), HSl, (smaller_app lo), !smaller_cons, !Nat.add_0_l, <- Hm. cbn [mass smaller_from]. rewrite Ep. reflexivity.
    + destruct HH as [HY HH]. rewrite insert_at_mid.
      assert (HD : is_double y = false).
      { destruct y as [| | |]; auto; exfalso.
        - destruct HY as (s & r & A1 & A2 & A3 & A4 & A5 & A6 & A7 & A8). rewrite <- Hm, pow_S in A8. lia.
        - destruct HY as (A7 & A8). rewrite <- Hm, pow_S in A8. lia. }
      destruct (insm_ok L y o (seq hi) (seq lo ++ post) (S (length lo)) (smaller_from 0 lo) 0) as (y' & Ey & Elb & Emass & Hy' & Hvy & _); auto.
      { rewrite seq_cons, <- app_assoc in HCo. exact HCo. }
      { eapply layer_ok_less; [| |exact HY]; lia. }
      { rewrite pow_S; lia. }
      rewrite Ey.
      destruct (IH (lo ++ [Vacant]) (y' :: hi)) as (ms' & E' & R1 & R2 & R3 & R4 & R5); auto.
      { rewrite <- Evac, Nat.add_1_r, HSl. split; auto. eapply winv_less; [| |exact HH]; lia || (rewrite Emass, <- Hm, pow_S; lia). }
      { rewrite seq_mid, HQl, Elb, <- !app_assoc. rewrite seq_cons, <- app_assoc in HCo. exact HCo. }
      { apply topok_up; [|discriminate]. apply (topok_down lo) in HT; [|discriminate].
        destruct hi as [|z hi]; [apply (topok_app []); auto|]. apply (topok_down [x; y]) in HT; [|discriminate]. apply (topok_up [y']); [|discriminate]. exact HT. }
      rewrite <- Evac, Nat.add_1_r in E'. exists ms'. split; [exact E'|]. split; auto. split; auto. split; auto. split; auto.
      rewrite R5, (smaller_app (lo ++ [Vacant])), HSl, (smaller_app lo), !smaller_cons, <- Evac, !Nat.add_0_l, <- Hm, !Nat.add_1_r, Emass, pow_S. lia.
  - destruct (IH (lo ++ [x']) hi) as (ms' & E' & R1 & R2 & R3 & R4 & R5); auto.
    { apply winv_app. split; auto. simpl. auto. }
    { apply Forall_app; split; auto. }
    { rewrite app_length, Nat.add_1_r, smaller_app, smaller_cons. simpl length. rewrite Nat.add_0_l, Hm. cbn [smaller_from]. rewrite Nat.add_0_r. exact HH. }
    { rewrite <- app_assoc. simpl. rewrite seq_mid, <- !app_assoc. exact HC'. }
    { rewrite <- app_assoc. simpl. apply topok_up; [|discriminate]. apply (topok_down lo) in HT; [|discriminate].
      destruct hi as [|z hi].
      - apply (topok_app []). rewrite Hv. destruct HT as [HT|(l & z & E & Hz)]; [discriminate|]. destruct l as [|? l]; inversion E; subst; auto. destruct l; discriminate.
      - apply (topok_down [x]) in HT; [|discriminate]. apply (topok_up [x']); [|discriminate]. exact HT. }
    rewrite app_length, Nat.add_1_r, <- app_assoc in E'. exists ms'. split; [exact E'|]. split; auto. split; auto. split; auto. split; auto.
    rewrite R5, <- app_assoc. simpl app. rewrite (smaller_app lo 0 (x' :: hi)), (smaller_app lo 0 (x :: hi)), !smaller_cons, Nat.add_0_l, Hm. reflexivity.
Qed.

Lemma apply_fuel_all L F ms post : winv L 0 0 0 ms -> cov L h (seq ms ++ post) -> topok ms ->
  exists ms', apply_fuel L ms (Z.of_nat F) = Some ms' /\
    winv L F 0 0 ms' /\ Forall no_complete ms' /\ cov L h (seq ms' ++ post) /\ topok ms' /\
    smaller_from 0 ms' = smaller_from 0 ms.
Proof.
  intros HW HC HT. destruct (apply_fuel_ok L F post (length ms) [] ms) as (ms' & E & H); auto.
  - simpl; auto.
  - exists ms'. split; auto.
Qed.

(** *** roll_up *)
Lemma split_at {A} (l : list A) j : j < length l -> exists lo x hi, l = lo ++ x :: hi /\ length lo = j.
Proof.
  intros H. exists (firstn j l). destruct (skipn j l) as [|x hi] eqn:E.
  - apply (f_equal (@length A)) in E. rewrite skipn_length in E. simpl in E. lia.
  - exists x, hi. rewrite <- E, firstn_skipn. split; auto. apply firstn_length_le. lia.
Qed.

Lemma winv_vacant L F : forall n k c, winv L F k c (repeat (@Vacant B M) n).
Proof. induction n; intros k c; simpl; auto. Qed.

Lemma all_vacant (l : list mst) : existsb (fun m => negb (is_vacant m)) l = false -> l = repeat Vacant (length l).
Proof.
  induction l as [|x l IH]; simpl; intros H; auto. apply Bool.orb_false_elim in H. destruct H as [H1 H2].
  destruct x; try discriminate. f_equal; auto.
Qed.
Lemma not_all_vacant (l : list mst) k : existsb (fun m => negb (is_vacant m)) l = true -> 1 <= smaller_from k l.
Proof.
  revert k; induction l as [|x l IH]; simpl existsb; intros k H; [discriminate|]. rewrite smaller_cons.
  pose proof (pow_pos k). destruct x; simpl in H |- *; try lia. apply IH; auto.
Qed.

(** lower layers carry no merges once they have been given enough fuel *)
Lemma winv_no_double L F j : forall ms k c, Forall no_complete ms -> winv L F k c ms -> 8 * 2 ^ j <= F -> k + length ms <= S j ->
  Forall (fun x => is_double x = false) ms.
Proof.
  induction ms as [|x ms IH]; intros k c HN HW HF Hl; constructor; inversion HN; subst; destruct HW as [HX HW]; simpl in Hl.
  - destruct x; auto; try discriminate. exfalso.
    destruct HX as (s & r & A1 & A2 & A3 & A4 & A5 & A6 & A7 & A8).
    assert (2 ^ k <= 2 ^ j) by (apply Nat.pow_le_mono_r; lia). pose proof (pow_pos j). lia.
  - eapply IH; eauto. lia.
Qed.

Lemma roll_loop_ok L post F hi : forall lo i c o, Forall (fun x => is_double x = false) lo -> winv L F i c lo -> olen o <= 2 ^ i ->
  cov L h (seq hi ++ seq lo ++ ol o ++ post) ->
  exists o', roll_loop (length lo) i L (repeat Vacant i ++ lo ++ hi) o = Some (repeat Vacant (i + length lo) ++ hi, o') /\
    olen o' <= 2 ^ (i + length lo) /\ cov L h (seq hi ++ ol o' ++ post).
Proof.
  induction lo as [|y lo IH]; intros i c o HD HW Ho HC.
  - simpl. rewrite Nat.add_0_r. exists o. auto.
  - inversion HD as [|? ? D1 D2]; subst. destruct HW as [HY HW]. rewrite seq_cons, <- !app_assoc in HC.
    cbn [SpineM.roll_loop length]. simpl app.
    assert (El : length (repeat (@Vacant B M) i) = i) by apply repeat_length.
    rewrite (insert_at_mid' _ _ _ _ _ _ El).
    rewrite (app_assoc (seq hi)) in HC.
    destruct (insm_ok L y o (seq hi ++ seq lo) post i 0 F) as (y' & Ey & Elb & Em & Hy' & _ & Hdy & _); auto.
    { eapply layer_ok_less; [| |exact HY]; [|]. lia. lia. }
    { lia. }
    rewrite Ey. rewrite (complete_at_mid' _ _ _ _ El).
    destruct (complete_ok L y' (seq hi ++ seq lo) post i 0 0) as (o' & Eo & HCo & Holo & _).
    { rewrite Elb, <- (app_assoc (layer_batches y)). exact HC. }
    { exact Hy'. }
    rewrite Eo. rewrite <- app_assoc in HCo.
    destruct (IH (S i) (c + mass i y) o' D2 HW) as (o2 & E2 & A1 & A2).
    { assert (mass i y <= 2 ^ i) by (destruct y; simpl; try discriminate; lia). rewrite pow_S. lia. }
    { exact HCo. }
    assert (Er : repeat (@Vacant B M) i ++ Vacant :: lo ++ hi = repeat Vacant (S i) ++ lo ++ hi).
    { rewrite <- (app_nil_r (repeat Vacant (S i))). change (repeat (@Vacant B M) (S i)) with (Vacant :: repeat (@Vacant B M) i).
      rewrite (repeat_cons i Vacant), <- !app_assoc. reflexivity. }
    rewrite Er, E2. replace (i + S (length lo)) with (S i + length lo) by lia. exists o2. auto.
Qed.

Lemma grow_split (ms : list mst) j : exists lo x hi, grow ms j = lo ++ x :: hi /\ length lo = j.
Proof. apply split_at. unfold grow. rewrite app_length, repeat_length. lia. Qed.

Lemma winv_grow L F ms j : winv L F 0 0 ms -> winv L F 0 0 (grow ms j).
Proof. intros H. unfold grow. apply winv_app. split; auto. apply winv_vacant. Qed.
Lemma no_complete_grow ms j : Forall no_complete ms -> Forall no_complete (grow ms j).
Proof. intros H. unfold grow. apply Forall_app. split; auto. apply Forall_forall. intros x Hx. apply repeat_spec in Hx. subst; reflexivity. Qed.
Lemma seq_grow ms j : seq (grow ms j) = seq ms.
Proof. unfold grow. rewrite seq_app, seq_vacant. reflexivity. Qed.
Lemma smaller_grow (ms : list mst) j : smaller_from 0 (grow ms j) = smaller_from 0 ms.
Proof. unfold grow. rewrite smaller_app, smaller_vacant. lia. Qed.
Lemma topok_grow ms j x hi lo : topok ms -> grow ms j = lo ++ x :: hi -> length lo = j -> hi = [] \/ topok hi.
Proof.
  intros HT E El. unfold grow in E. destruct (Nat.le_gt_cases (length ms) (S j)) as [H|H].
  - left. apply (f_equal (@length mst)) in E. rewrite !app_length, repeat_length in E. cbn [length] in E. destruct hi; auto. cbn [length] in E. lia.
  - replace (S j - length ms) with 0 in E by lia. rewrite app_nil_r in E. subst ms.
    destruct hi as [|z hi]; auto. right. apply (topok_down (lo ++ [x])); [|discriminate]. rewrite <- app_assoc. exact HT.
Qed.

Lemma roll_insert_ok L F ms j batch :
  winv L F 0 0 ms -> Forall no_complete ms -> 8 * 2 ^ j <= F -> cov L h (seq ms ++ ol batch) -> olen batch <= 2 ^ j -> topok ms ->
  exists ms1 ms2, roll_up L ms j = Some ms1 /\ insert_at L ms1 batch j = Some ms2 /\
    winv L 0 0 0 ms2 /\ cov L h (seq ms2) /\ topok ms2 /\ smaller_from 0 ms2 <= smaller_from 0 ms + 2 * 2 ^ j.
Proof.
  intros HW HN HF HC Hb HT. pose proof (pow_pos j) as Hp.
  destruct (grow_split ms j) as (lo & x & hi & Eg & El).
  apply (winv_grow _ _ _ j) in HW. apply (no_complete_grow _ j) in HN. rewrite <- (seq_grow ms j) in HC. rewrite <- (smaller_grow ms j).
  pose proof (topok_grow ms j x hi lo HT Eg El) as HTh.
  unfold SpineM.roll_up. rewrite Eg in *. clear Eg HT.
  assert (Ef : firstn j (lo ++ x :: hi) = lo).
  { rewrite <- El, firstn_app, firstn_all, Nat.sub_diag. simpl firstn. apply app_nil_r. }
  rewrite Ef.
  apply winv_app in HW. destruct HW as [HWl [HX HWh]]. rewrite !Nat.add_0_l, El in HX, HWh. apply Forall_app in HN. destruct HN as [HNl HNh].
  inversion HNh as [|? ? Nx Nh]; subst x0 l. rewrite seq_mid, <- !app_assoc in HC.
  assert (HDl : Forall (fun x => is_double x = false) (lo ++ [x])).
  { eapply (winv_no_double L F j _ 0 0); auto.
    - apply Forall_app; split; auto.
    - apply winv_app. split; auto. cbn [winv]. rewrite !Nat.add_0_l, El. auto.
    - rewrite app_length. simpl. lia. }
  apply Forall_app in HDl. destruct HDl as [HDl HDx]. inversion HDx as [|? ? Dx _]; subst x0 l. clear HDx.
  assert (HTop : forall lo' y, is_vacant y = false -> topok (lo' ++ y :: hi)).
  { intros lo' y Hy. apply topok_up; [|discriminate]. destruct HTh as [->|HTh]; [apply (topok_app []); auto|].
    destruct hi; [apply (topok_app []); auto|]. apply (topok_up [y]); [auto|discriminate]. }
  assert (HS0 : smaller_from 0 (lo ++ x :: hi) = smaller_from 0 lo + mass j x + smaller_from (S j) hi).
  { rewrite smaller_app, smaller_cons, Nat.add_0_l, El. lia. }
  destruct (existsb (fun m => negb (is_vacant m)) lo) eqn:Ev.
  - apply (not_all_vacant lo 0) in Ev.
    destruct (roll_loop_ok L (ol batch) F (x :: hi) lo 0 0 None) as (o & Eo & Ho & HCo); auto.
    { simpl; lia. }
    { rewrite seq_cons, <- !app_assoc. simpl ol. simpl app. exact HC. }
    simpl plus in *. rewrite El in Eo, Ho. change (repeat Vacant 0 ++ lo ++ x :: hi) with (lo ++ x :: hi) in Eo. rewrite Eo. rewrite seq_cons, <- !app_assoc in HCo.
    assert (Er : length (repeat (@Vacant B M) j) = j) by apply repeat_length.
    rewrite (insert_at_mid' _ _ _ _ _ _ Er).
    destruct (insm_ok L x o (seq hi) (ol batch) j 0 F) as (x' & Ex & Elb & Em & Hx' & Hvx & Hdx & Hsx); auto.
    { eapply layer_ok_less; [| |exact HX]; lia. }
    { lia. }
    rewrite Ex, (get_mid' _ _ _ _ Er), Hdx. destruct (is_vacant x) eqn:Evx; simpl negb; cbn match.
    + rewrite (Hsx eq_refl) in *. replace (layer_batches x) with (@nil B) in HCo by (destruct x; auto; discriminate). eexists.
      destruct (insm_ok L (Single o) batch (seq hi) [] j 0 0) as (y & Ey & Ely & Emy & Hy & Hvy & _); auto; try lia.
      { rewrite app_nil_r. destruct o; exact HCo. }
      eexists. split; [reflexivity|]. rewrite (insert_at_mid' _ _ _ _ _ _ Er), Ey. split; [reflexivity|].
      assert (Emx : mass j x = 0) by (destruct x; auto; discriminate).
      split; [|split; [|split; [apply HTop; auto|]]].
      * apply winv_app. split; [apply winv_vacant|]. rewrite smaller_vacant, Er. split; auto.
        eapply winv_room; [exact Nh| |exact HWh]. rewrite !Nat.add_0_l, Emy, Emx. cbn [mass]. lia.
      * rewrite seq_mid, seq_vacant, app_nil_r, Ely. destruct o; exact HCo.
      * rewrite HS0, smaller_app, smaller_vacant, Er, smaller_cons, !Nat.add_0_l, Emy, Emx. cbn [mass]. lia.
    + assert (Emx : mass j x = 2 ^ j) by (destruct x; auto; discriminate).
      rewrite (complete_at_mid' _ _ _ _ Er).
      destruct (complete_ok L x' (seq hi) (ol batch) j 0 0) as (o2 & Eo2 & HC2 & Ho2 & _); auto.
      { rewrite Elb, <- (app_assoc (layer_batches x)). exact HCo. }
      rewrite Eo2. rewrite Em, Emx in Ho2.
      assert (Er1 : length (repeat (@Vacant B M) j ++ [Vacant]) = j + 1) by (rewrite app_length, Er; reflexivity).
      replace (repeat Vacant j ++ Vacant :: hi) with ((repeat (@Vacant B M) j ++ [Vacant]) ++ hi) by (rewrite <- app_assoc; reflexivity).
      destruct hi as [|z hi].
      * rewrite app_nil_r, (insert_at_end' _ _ _ _ Er1). eexists. eexists. split; [reflexivity|].
        rewrite <- app_assoc. simpl app. rewrite (insert_at_mid' _ _ _ _ _ _ Er). simpl insm. split; [reflexivity|].
        split; [|split; [|split]].
        -- apply winv_app. split; [apply winv_vacant|]. rewrite smaller_vacant, Er. simpl plus. cbn [winv layer_ok]. rewrite pow_S. repeat (split; auto). lia.
        -- rewrite seq_mid, seq_cons, seq_vacant, app_nil_r. destruct o2, batch; exact HC2.
        -- apply (topok_up (repeat Vacant j)); [|discriminate]. apply (topok_app [Single batch]); auto.
        -- rewrite HS0, smaller_app, smaller_vacant, Er, !smaller_cons, !Nat.add_0_l, Emx. cbn [mass smaller_from]. rewrite pow_S. lia.
      * destruct HWh as [HZ HWh]. inversion Nh as [|? ? Nz Nh']; subst x0 l.
        rewrite (insert_at_mid' _ _ _ _ _ _ Er1). rewrite seq_cons, <- !app_assoc in HC2.
        assert (Dz : is_double z = false).
        { destruct z as [| | |]; auto; try discriminate. exfalso. destruct HZ as (s & r & A1 & A2 & A3 & A4 & A5 & A6 & A7 & A8).
          rewrite pow_S in A7. lia. }
        destruct (insm_ok L z o2 (seq hi) (ol batch) (S j) (2 ^ j) 0) as (z' & Ez & Elz & Emz & Hz' & Hvz & _); auto.
        { destruct z; simpl; auto; discriminate. }
        { rewrite pow_S; lia. }
        rewrite Ez. eexists. eexists. split; [reflexivity|].
        rewrite <- app_assoc. simpl app. rewrite (insert_at_mid' _ _ _ _ _ _ Er). simpl insm. split; [reflexivity|].
        split; [|split; [|split]].
        -- apply winv_app. split; [apply winv_vacant|]. rewrite smaller_vacant, Er, !Nat.add_0_l. cbn [winv].
           split; [exact Hb|]. cbn [mass]. split; [exact Hz'|]. eapply winv_room; [exact Nh'| |exact HWh]. rewrite Emz, Emx, pow_S. lia.
        -- rewrite seq_mid, seq_cons, seq_vacant, app_nil_r, Elz, <- !app_assoc. destruct batch; exact HC2.
        -- apply (topok_up (repeat Vacant j)); [|discriminate]. apply (topok_up [Single batch]); [|discriminate].
           destruct HTh as [HTh|HTh]; [discriminate|]. destruct hi; [apply (topok_app []); auto|].
           apply (topok_up [z']); [|discriminate]. apply (topok_down [z]); [exact HTh|discriminate].
        -- rewrite HS0, smaller_app, smaller_vacant, Er, !smaller_cons, !Nat.add_0_l, Emx, Emz. cbn [mass]. rewrite pow_S. lia.
  - apply all_vacant in Ev. rewrite El in Ev. subst lo.
    destruct (insm_ok L x batch (seq hi) [] j 0 F) as (y & Ey & Ely & Emy & Hy & Hvy & _); auto; try lia.
    { rewrite seq_vacant in HC. rewrite app_nil_r. exact HC. }
    { eapply layer_ok_less; [| |exact HX]; lia. }
    eexists. eexists. split; [reflexivity|]. rewrite (insert_at_mid' _ _ _ _ _ _ El), Ey. split; [reflexivity|]. rewrite smaller_vacant in *.
    split; [|split; [|split; [apply HTop; auto|]]].
    + apply winv_app. split; [apply winv_vacant|]. rewrite smaller_vacant, El. split; auto.
      eapply winv_room; [exact Nh| |exact HWh]. rewrite !Nat.add_0_l, Emy. lia.
    + rewrite seq_mid, seq_vacant, app_nil_r, Ely. rewrite seq_vacant in HC. exact HC.
    + rewrite HS0, smaller_app, smaller_vacant, El, smaller_cons, !Nat.add_0_l, Emy. lia.
Qed.

(** *** tidy_layers *)
Lemma level_ok n : n <= 2 ^ level_of n.
Proof.
  unfold level_of. destruct (Nat.le_gt_cases n 1) as [H|H].
  - pose proof (pow_pos (Nat.log2_up n)). lia.
  - apply Nat.log2_up_spec; auto.
Qed.
Lemma level_bound n : 2 ^ level_of n <= 2 * Nat.max 1 n.
Proof.
  unfold level_of. destruct (Nat.le_gt_cases n 1) as [H|H].
  - destruct n as [|[|n]]; simpl; lia.
  - pose proof (Nat.log2_up_spec n H) as [H1 _]. pose proof (Nat.log2_up_pos n H).
    destruct (Nat.log2_up n) as [|k]; [lia|]. rewrite pow_S. simpl in H1. lia.
Qed.

Lemma remove_at_mid {A} (lo : list A) x hi i : length lo = i -> remove_at (lo ++ x :: hi) i = Some (lo ++ hi).
Proof.
  intros <-. unfold remove_at. rewrite app_length. simpl length. destruct (Nat.ltb_spec (length lo) (length lo + S (length hi))); [|lia].
  rewrite firstn_app, firstn_all, Nat.sub_diag. simpl firstn. rewrite app_nil_r.
  rewrite skipn_app. rewrite skipn_all2 by lia. replace (S (length lo) - length lo) with 1 by lia. reflexivity.
Qed.
Lemma firstn_mid {A} (lo : list A) hi i : length lo = i -> firstn i (lo ++ hi) = lo.
Proof. intros <-. rewrite firstn_app, firstn_all, Nat.sub_diag. simpl. apply app_nil_r. Qed.

Lemma tidy_loop_ok L o a : olen o <= 2 ^ a -> forall fuel lo, length lo < fuel ->
  winv L 0 0 0 (lo ++ [Single o]) -> cov L h (seq (lo ++ [Single o])) ->
  exists ms', tidy_loop fuel a L (lo ++ [Single o]) = Some ms' /\ winv L 0 0 0 ms' /\ cov L h (seq ms') /\ topok ms' /\
    smaller_from 0 ms' <= smaller_from 0 (lo ++ [Single o]).
Proof.
  intros Ho. induction fuel as [|fuel IH]; intros lo Hl HW HC; [lia|]. cbn [SpineM.tidy_loop].
  assert (Hdone : exists ms', Some (lo ++ [Single o]) = Some ms' /\ winv L 0 0 0 ms' /\ cov L h (seq ms') /\ topok ms' /\
    smaller_from 0 ms' <= smaller_from 0 (lo ++ [Single o])).
  { eexists. split; [reflexivity|]. split; auto. split; auto. split; auto. apply topok_app; auto. }
  destruct (Nat.ltb_spec a (length (lo ++ [Single o]) - 1)) as [Ha|Ha]; [|exact Hdone].
  rewrite app_length in Ha. simpl in Ha. destruct (exists_last (l:=lo)) as (lo' & x & Elo).
  { intros ->. simpl in Ha. lia. }
  subst lo. rewrite <- app_assoc in *. simpl app in *.
  assert (El : length lo' = length (lo' ++ [x; Single o]) - 2) by (rewrite app_length; simpl; lia).
  rewrite app_length in Ha. simpl in Ha. rewrite app_length in Hl. simpl in Hl.
  rewrite (get_mid' _ _ _ _ El). apply winv_app in HW. destruct HW as [HWl (HX & HO & _)]. rewrite !Nat.add_0_l in HX, HO.
  rewrite seq_mid in HC. change (seq [Single o]) with (layer_batches (@Single B M o) ++ []) in HC. rewrite app_nil_r in HC.
  assert (Hpow : 2 ^ a <= 2 ^ length lo') by (apply Nat.pow_le_mono_r; lia).
  assert (HW1 : winv L 0 0 0 (lo' ++ [Single o])).
  { apply winv_app. split; auto. cbn [winv layer_ok]. rewrite !Nat.add_0_l. split; auto. lia. }
  assert (Hstep : layer_batches x = [] -> exists ms', tidy_loop fuel a L (lo' ++ [Single o]) = Some ms' /\ winv L 0 0 0 ms' /\ cov L h (seq ms') /\ topok ms' /\
    smaller_from 0 ms' <= smaller_from 0 (lo' ++ [x; Single o])).
  { intros Ex. destruct (IH lo') as (ms' & E & R1 & R2 & R3 & R4); auto; [lia| |].
    - rewrite Ex in HC. rewrite seq_mid. exact HC.
    - exists ms'. split; auto. split; auto. split; auto. split; auto. rewrite !smaller_app, !smaller_cons in *. cbn [mass smaller_from] in *.
      rewrite Nat.add_0_l, pow_S in *. lia. }
  rewrite (remove_at_mid _ _ _ _ El). destruct x as [|[b|]|b1 b2 m|o']; auto; try exact Hdone.
  rewrite (firstn_mid _ _ _ El). destruct (Nat.leb_spec (smaller_from 0 lo') (2 ^ length (lo' ++ [Single (Some b); Single o]) / 8)) as [Hs|Hs]; auto.
  assert (Hsm : 2 * smaller_from 0 lo' <= 2 ^ length lo').
  { rewrite app_length in Hs. simpl length in Hs. replace (length lo' + 2) with (S (S (length lo'))) in Hs by lia. rewrite !pow_S in Hs.
    pose proof (Nat.mul_div_le (2 * (2 * 2 ^ length lo')) 8 ltac:(lia)). lia. }
  rewrite (insert_at_mid' _ _ _ _ _ _ El).
  destruct (insm_ok L (Single o) (Some b) [] (seq lo') (length lo') (smaller_from 0 lo') 0) as (y & Ey & Ely & Emy & Hy & Hvy & _); auto.
  { cbn [layer_ok]. lia. }
  rewrite Ey. eexists. split; [reflexivity|]. split; [|split; [|split]].
  - apply winv_app. split; auto. cbn [winv]. rewrite !Nat.add_0_l. auto.
  - rewrite seq_mid, Ely, <- app_assoc. exact HC.
  - apply topok_app; auto.
  - rewrite !smaller_app, !smaller_cons, Nat.add_0_l, Emy. cbn [mass smaller_from]. rewrite pow_S. lia.
Qed.

Lemma tidy_ok L ms : winv L 0 0 0 ms -> cov L h (seq ms) -> topok ms ->
  exists ms', tidy_layers L ms = Some ms' /\ winv L 0 0 0 ms' /\ cov L h (seq ms') /\ topok ms' /\ smaller_from 0 ms' <= smaller_from 0 ms.
Proof.
  intros HW HC HT.
  destruct HT as [->|(lo & x & E & Hv)].
  - exists []. simpl. repeat (split; auto). left; auto.
  - assert (E1 : tidy_layers L ms = (x <- get ms (length ms - 1); if is_single x then tidy_loop (S (length ms)) (level_of (ms_len ops x)) L ms else Some ms)).
    { subst ms. destruct lo; reflexivity. }
    rewrite E1. clear E1. subst ms.
    rewrite (get_mid' lo x [] (length (lo ++ [x]) - 1)) by (rewrite app_length; simpl; lia).
    destruct x as [|o|b1 b2 m|o]; try discriminate; simpl is_single; cbn match.
    + apply tidy_loop_ok; auto; [|rewrite app_length; simpl; lia]. destruct o; [apply level_ok|simpl; lia].
    + eexists. split; [reflexivity|]. repeat (split; auto). apply topok_app; auto.
    + eexists. split; [reflexivity|]. repeat (split; auto). apply topok_app; auto.
Qed.

(** *** introduce_batch and consider_merges *)
Lemma introduce_ok e L ms batch j : 1 <= e -> winv L 0 0 0 ms -> cov L h (seq ms ++ ol batch) -> topok ms -> olen batch <= 2 ^ j ->
  exists ms', introduce_batch e L ms batch j = Some ms' /\ winv L 0 0 0 ms' /\ cov L h (seq ms') /\ topok ms' /\
    smaller_from 0 ms' <= smaller_from 0 ms + 2 * 2 ^ j.
Proof.
  intros He HW HC HT Hb. unfold SpineM.introduce_batch.
  destruct (apply_fuel_all L (8 * 2 ^ j * e) ms (ol batch) HW HC HT) as (ms1 & E1 & A1 & A2 & A3 & A4 & A5). rewrite E1.
  destruct (roll_insert_ok L (8 * 2 ^ j * e) ms1 j batch) as (ms2 & ms3 & E2 & E3 & B1 & B2 & B3 & B4); auto.
  { nia. }
  rewrite E2, E3. destruct (tidy_ok L ms3 B1 B2 B3) as (ms' & E4 & C1 & C2 & C3 & C4). exists ms'. split; auto. split; auto. split; auto. split; auto. lia.
Qed.

Lemma position_split (ms : list mst) p : position ms = Some p -> exists x hi, ms = repeat Vacant p ++ x :: hi /\ is_vacant x = false.
Proof.
  revert p; induction ms as [|x ms IH]; intros p H; simpl in H; [discriminate|]. destruct (is_vacant x) eqn:E.
  - destruct (position ms) as [q|]; [|discriminate]. inversion H; subst. destruct (IH q eq_refl) as (y & hi & E1 & E2). exists y, hi.
    split; auto. rewrite E1. destruct x; try discriminate. reflexivity.
  - inversion H; subst. exists x, ms. auto.
Qed.

Lemma consider_one_ok e L ms b : 1 <= e -> winv L 0 0 0 ms -> cov L h (seq ms ++ [b]) -> topok ms ->
  exists ms', consider_one e L ms b = Some ms' /\ winv L 0 0 0 ms' /\ cov L h (seq ms') /\ topok ms' /\
    smaller_from 0 ms' <= smaller_from 0 ms + 4 * Nat.max 1 (len b).
Proof.
  intros He HW HC HT.
  destruct (introduce_ok e L ms (Some b) (level_of (len b)) He HW HC HT (level_ok (len b))) as (msn & En & N1 & N2 & N3 & N4).
  pose proof (level_bound (len b)) as HL.
  assert (Hn : exists ms', introduce_batch e L ms (Some b) (level_of (len b)) = Some ms' /\ winv L 0 0 0 ms' /\ cov L h (seq ms') /\ topok ms' /\
    smaller_from 0 ms' <= smaller_from 0 ms + 4 * Nat.max 1 (len b)).
  { exists msn. split; auto. split; auto. split; auto. split; auto. lia. }
  unfold SpineM.consider_one. destruct (Nat.eqb_spec (len b) 0) as [E0|E0]; [|exact Hn].
  destruct (position ms) as [p|] eqn:Ep; [|exact Hn].
  destruct (position_split ms p Ep) as (x & hi & Ems & Hv).
  assert (Er : length (repeat (@Vacant B M) p) = p) by apply repeat_length.
  assert (Eget : get ms p = Some x) by (rewrite Ems; apply get_mid'; auto). rewrite Eget. destruct (is_single x && (ms_len ops x =? 0)) eqn:Es; [|exact Hn].
  clear Hn msn En N1 N2 N3 N4. apply andb_prop in Es. destruct Es as [Es1 Es2]. apply Nat.eqb_eq in Es2. subst ms.
  rewrite seq_mid, seq_vacant, app_nil_r, <- app_assoc in HC. apply winv_app in HW. destruct HW as [HWl [HX HWh]].
  rewrite smaller_vacant, Er, !Nat.add_0_l in HX, HWh.
  rewrite (insert_at_mid' _ _ _ _ _ _ Er). pose proof (pow_pos p) as Hpp.
  destruct (insm_ok L x (Some b) (seq hi) [] p 0 0) as (y & Ey & Ely & Emy & Hy & Hvy & _ & _); auto; try (simpl; lia).
  { destruct x; auto; discriminate. }
  rewrite Ey, (complete_at_mid' _ _ _ _ Er).
  destruct (complete_ok L y (seq hi) [] p 0 0) as (o & Eo & HCo & Holo & _ & Hlen); auto.
  { rewrite Ely, app_nil_r. exact HC. }
  rewrite Eo, (put_mid' _ _ _ _ _ Er).
  assert (Hol0 : olen o = 0).
  { destruct x as [|old| |]; try discriminate. assert (Hy0 : ms_len ops y = 0).
    { destruct old as [ob|]; simpl in Ey.
      - destruct (ac_eqb _ _); [|discriminate]. destruct (b_begin _ _ _ _); [|discriminate]. inversion Ey; subst. simpl in *. lia.
      - inversion Ey; subst. simpl. auto. }
    lia. }
  eexists. split; [reflexivity|]. split; [|split; [|split]].
  - apply winv_app. split; [apply winv_vacant|]. rewrite smaller_vacant, Er, !Nat.add_0_l. cbn [winv layer_ok]. split; [lia|].
    destruct x; try discriminate. exact HWh.
  - rewrite seq_mid, seq_vacant. destruct o; exact HCo.
  - apply topok_up; [|discriminate]. destruct hi as [|z hi]; [apply (topok_app []); auto|].
    apply (topok_up [Single o]); [|discriminate]. apply (topok_down (repeat Vacant p ++ [x])); [|discriminate]. rewrite <- app_assoc. exact HT.
  - rewrite !smaller_app, !smaller_cons. destruct x; try discriminate. cbn [mass]. lia.
Qed.
End History.

(** ** Whole histories *)
Definition load (b : B) : nat := 4 * Nat.max 1 (len b).
Definition op_load (op : s_op B T) : nat :=
  match op with SInsert b => load b | SClose => 4 | SExert (Some e) => 4 * Nat.max 1 e | _ => 0 end.
Fixpoint sum (l : list nat) : nat := match l with [] => 0 | x :: l => x + sum l end.
Lemma sum_app l1 l2 : sum (l1 ++ l2) = sum l1 + sum l2.
Proof. induction l1; simpl; auto. lia. Qed.

Definition kept (L : list T) (b : B) : Prop := forall t, beyond L t -> beyond (since_of b) t.

Lemma consider_loop_ok e L P lo0 up0 budget : 1 <= e -> forall pend h1 ms, tiles lo0 (h1 ++ pend) up0 -> Forall proper (h1 ++ pend) ->
  cov L h1 (seq ms) -> Forall (fun b => ac_le (upper_of b) P = true) h1 -> Forall (kept L) pend ->
  winv L 0 0 0 ms -> topok ms -> smaller_from 0 ms + sum (map load pend) <= budget ->
  exists ms' pend' h1', consider_loop e L P ms pend = Some (ms', pend') /\ h1 ++ pend = h1' ++ pend' /\
    cov L h1' (seq ms') /\ Forall (fun b => ac_le (upper_of b) P = true) h1' /\ Forall (kept L) pend' /\
    winv L 0 0 0 ms' /\ topok ms' /\ smaller_from 0 ms' + sum (map load pend') <= budget.
Proof.
  intros He. induction pend as [|b pend IH]; intros h1 ms HT HP HC HU HK HW Htop HB; cbn [SpineM.consider_loop].
  - exists ms, [], h1. repeat (split; auto).
  - fold (upper_of b). destruct (ac_le (upper_of b) P) eqn:Eu.
    + inversion HK as [|? ? K1 K2]; subst.
      replace (h1 ++ b :: pend) with ((h1 ++ [b]) ++ pend) in * by (rewrite <- app_assoc; reflexivity).
      destruct (tiles_app _ _ _ _ HT) as (mid & HT1 & _). pose proof HP as HP'. apply Forall_app in HP'. destruct HP' as [HP1 _].
      assert (Pb : proper b). { apply Forall_app in HP1. destruct HP1 as [_ HP1]. inversion HP1; auto. }
      assert (HC1 : cov L (h1 ++ [b]) (seq ms ++ [b])) by (apply cov_app; auto; apply cov_one; [apply Pb|apply proper_spans, Pb|auto]).
      destruct (consider_one_ok (h1 ++ [b]) lo0 mid HT1 HP1 e L ms b He HW HC1 Htop) as (ms1 & E1 & A1 & A2 & A3 & A4).
      rewrite E1. simpl in HB. change (load b) with (4 * Nat.max 1 (len b)) in HB.
      apply IH; auto; try lia. apply Forall_app; split; auto.
    + exists ms, (b :: pend), h1. repeat (split; auto).
Qed.

Record Sinv (s : Spine B M T) (h : list B) (up L P : list T) (budget : nat) : Prop := {
  si_effort : 1 <= effort s;
  si_upper : upper s = up;
  si_upper_ac : antichain up;
  si_logical : same_future (logical s) L;
  si_physical : same_future (physical s) P;
  si_tiles : tiles [tmin] h up;
  si_proper : Forall proper h;
  si_hist : exists h1, h = h1 ++ pending s /\ cov (logical s) h1 (seq (merging s)) /\
              Forall (fun b => ac_le (upper_of b) (physical s) = true) h1;
  si_kept : Forall (kept (logical s)) (pending s);
  si_layers : winv (logical s) 0 0 0 (merging s);
  si_top : topok (merging s);
  si_mass : smaller_from 0 (merging s) + sum (map load (pending s)) <= budget
}.

Lemma Sinv_consider s h up L P budget : Sinv s h up L P budget -> exists s', consider_merges ops s = Some s' /\ Sinv s' h up L P budget.
Proof.
  intros [A1 A2 A3 A4 A5 A6 A7 (h1 & E & B1 & B2) A9 A10 A11 A12]. unfold consider_merges. rewrite E in A6, A7.
  destruct (consider_loop_ok (effort s) (logical s) (physical s) _ _ budget A1 _ _ _ A6 A7 B1 B2 A9 A10 A11 A12)
    as (ms' & pend' & h1' & E' & Eh & C1 & C2 & C3 & C4 & C5 & C6).
  rewrite E'. eexists. split; [reflexivity|]. rewrite E. constructor; simpl; auto. exists h1'. auto.
Qed.

Lemma Sinv_insert s h up L P budget b : Sinv s h up L P budget -> proper b -> same_future (lower_of b) up -> kept L b ->
  exists s', spine_insert ops s b = Some s' /\ Sinv s' (h ++ [b]) (upper_of b) L P (budget + load b).
Proof.
  intros [A1 A2 A3 A4 A5 A6 A7 (h1 & E & B1 & B2) A9 A10 A11 A12] Pb Hl Hk. unfold spine_insert.
  fold (lower_of b). fold (upper_of b).
  destruct (ac_eqb (lower_of b) (upper_of b)) eqn:E1.
  { apply ac_eqb_spec in E1; [|apply Pb|apply Pb]. destruct Pb; contradiction. }
  rewrite A2, (proj2 (ac_eqb_spec (lower_of b) up (pr_lower _ _ _ _ Pb) A3) Hl). simpl negb. cbn match.
  apply Sinv_consider. constructor; simpl; auto.
  - apply Pb.
  - apply tiles_snoc with (up := up); auto. apply same_future_sym; auto.
  - apply Forall_app; split; auto.
  - exists h1. rewrite E, app_assoc. auto.
  - apply Forall_app; split; auto. constructor; auto. intros t Ht. apply Hk, A4, Ht.
  - rewrite map_app, sum_app. simpl. lia.
Qed.

Lemma not_future_nil (F : list T) : F <> [] -> ~ same_future F [].
Proof.
  intros HF H. destruct F as [|f F]; auto. apply (beyond_nil (T:=T) f), H. exists f. split; [left; auto|apply tle_refl].
Qed.

Lemma Sinv_step s h up L P budget : Sinv s h up L P budget ->
  (forall a, exists s', spine_exert ops s a = Some s' /\ Sinv s' h up L P (budget + op_load (SExert a))).
Proof.
  intros [A1 A2 A3 A4 A5 A6 A7 (h1 & E & B1 & B2) A9 A10 A11 A12] a. unfold spine_exert.
  pose proof A6 as A6'. pose proof A7 as A7'. rewrite E in A6', A7'. destruct (tiles_app _ _ _ _ A6') as (mid & T1 & _).
  apply Forall_app in A7'. destruct A7' as [P1 _].
  destruct (tidy_ok h1 _ _ T1 P1 (logical s) (merging s) A10 B1 A11) as (ms1 & E1 & C1 & C2 & C3 & C4). rewrite E1.
  destruct a as [e|].
  - destruct (existsb is_double ms1).
    + rewrite <- (app_nil_r (seq ms1)) in C2.
      destruct (apply_fuel_all h1 _ _ T1 P1 (logical s) e ms1 [] C1 C2 C3) as (ms2 & E2 & D1 & D2 & D3 & D4 & D5). rewrite E2.
      eexists. split; [reflexivity|]. rewrite app_nil_r in D3. constructor; simpl; auto.
      * exists h1. auto.
      * eapply winv_less; [| |exact D1]; lia.
      * lia.
    + destruct (introduce_ok h1 _ _ T1 P1 (effort s) (logical s) ms1 None (level_of e) A1 C1) as (ms2 & E2 & D1 & D2 & D3 & D4); auto.
      { simpl. rewrite app_nil_r. exact C2. }
      { simpl; lia. }
      rewrite E2. eexists. split; [reflexivity|]. constructor; simpl; auto.
      * exists h1. auto.
      * pose proof (level_bound e). change (smaller_from 0 ms2 + sum (map load (pending s)) <= budget + 4 * Nat.max 1 e). lia.
  - eexists. split; [reflexivity|]. constructor; simpl; auto; try lia. exists h1. auto.
Qed.

Lemma Sinv_logical s h up L P budget F : Sinv s h up L P budget -> (forall t, beyond F t -> beyond L t) -> Sinv (set_logical s F) h up F P budget.
Proof.
  intros [A1 A2 A3 A4 A5 A6 A7 (h1 & E & B1 & B2) A9 A10 A11 A12] HF.
  assert (HL : forall t, beyond (ac_from F) t -> beyond (logical s) t). { intros t Ht. apply A4, HF, ac_from_beyond, Ht. }
  constructor; simpl; auto.
  - intros t. apply ac_from_beyond.
  - exists h1. split; auto. split; auto. eapply cov_mono; eauto.
  - eapply Forall_impl; [|exact A9]. intros b Hb t Ht. apply Hb, HL, Ht.
  - eapply winv_L; eauto.
Qed.

Lemma Sinv_physical s h up L P budget F : Sinv s h up L P budget -> (forall t, beyond F t -> beyond P t) ->
  exists s', set_physical ops s F = Some s' /\ Sinv s' h up L F budget.
Proof.
  intros [A1 A2 A3 A4 A5 A6 A7 (h1 & E & B1 & B2) A9 A10 A11 A12] HF. unfold set_physical.
  apply Sinv_consider. constructor; simpl; auto.
  - intros t. apply ac_from_beyond.
  - exists h1. split; auto. split; auto. eapply Forall_impl; [|exact B2]. cbv beta. intros b Hb.
    apply ac_le_spec. intros t Ht. eapply ac_le_spec; [exact Hb|]. apply A5, HF, ac_from_beyond, Ht.
Qed.

Lemma s_run_app l1 : forall s l2, s_run ops s (l1 ++ l2) = (s' <- s_run ops s l1; s_run ops s' l2).
Proof. induction l1 as [|op l1 IH]; intros s l2; simpl; auto. destruct (s_step ops s op); auto. Qed.

Lemma sum_snoc l op : sum (map op_load (l ++ [op])) = sum (map op_load l) + op_load op.
Proof. rewrite map_app, sum_app. cbn [map sum]. lia. Qed.

Lemma history_runs e l h up L P : s_history ops contents laws l h up L P ->
  exists s, s_run ops (with_effort e) l = Some s /\ Sinv s h up L P (sum (map op_load l)).
Proof.
  induction 1 as [|l h up L P b H (s & E & HS) Hp Hl Hk|l h up L P b H (s & E & HS) Hu Hb|l h L P H (s & E & HS)
    |l h up L P a H (s & E & HS)|l h up L P F H (s & E & HS) HF|l h up L P F H (s & E & HS) HF];
    try (rewrite s_run_app, E, sum_snoc; cbn [s_run s_step]).
  - exists (with_effort e). split; [reflexivity|]. constructor; simpl; auto; try (intros t; tauto).
    + destruct (Nat.eqb_spec e 0); lia.
    + constructor; [|constructor]. intros y [].
    + constructor. apply same_future_refl.
    + exists []. split; auto. split; [apply cov_nil|constructor].
    + left; auto.
  - destruct (Sinv_insert _ _ _ _ _ _ b HS Hp Hl Hk) as (s' & E' & HS'). rewrite E'. exists s'. split; auto.
  - unfold spine_close. rewrite (si_upper _ _ _ _ _ _ HS).
    destruct (bl_empty _ _ laws up [] Hu) as (b' & Eb & Ob & Cb & Lb & Ub & Sb). rewrite Hb in Eb. inversion Eb; subst b'.
    assert (Pb : proper b).
    { constructor; auto.
      - rewrite Lb. apply HS.
      - rewrite Ub. constructor.
      - rewrite Lb; auto.
      - rewrite Ub. intros t Ht. destruct (beyond_nil _ Ht).
      - rewrite Lb, Ub. apply not_future_nil; auto. }
    destruct (Sinv_insert _ _ _ _ _ _ b HS Pb) as (s' & E' & HS').
    { rewrite Lb. apply same_future_refl. }
    { intros t _. apply Sb. }
    destruct up as [|u up]; [contradiction|]. rewrite Hb, E'. exists s'. split; auto.
    assert (Elen : len b = 0) by (rewrite (bl_len _ _ laws b Ob), Cb; reflexivity).
    rewrite Ub in HS'. unfold load in HS'. rewrite Elen in HS'. exact HS'.
  - unfold spine_close. rewrite (si_upper _ _ _ _ _ _ HS). exists s. split; auto.
    destruct HS as [A1 A2 A3 A4 A5 A6 A7 A8 A9 A10 A11 A12]. constructor; auto. simpl; lia.
  - destruct (Sinv_step _ _ _ _ _ _ HS a) as (s' & E' & HS'). rewrite E'. exists s'. split; auto.
  - exists (set_logical s F). split; auto. cbn [op_load]. rewrite Nat.add_0_r. apply (Sinv_logical _ _ _ _ _ _ _ HS HF).
  - destruct (Sinv_physical _ _ _ _ _ _ F HS HF) as (s' & E' & HS'). rewrite E'. exists s'. split; auto. cbn [op_load]. rewrite Nat.add_0_r. exact HS'.
Qed.

(** ** Consequences *)
Lemma Sinv_cov s h up L P n : Sinv s h up L P n -> cov (logical s) h (map_batches s).
Proof.
  intros [A1 A2 A3 A4 A5 A6 A7 (h1 & E & B1 & B2) A9 A10 A11 A12]. unfold map_batches. fold (seq (merging s)). rewrite E. apply cov_app; auto.
  assert (HP : Forall proper (pending s)) by (rewrite E in A7; apply Forall_app in A7; tauto).
  clear - A9 HP. induction (pending s) as [|b l IH]; [apply cov_nil|]. inversion A9; inversion HP; subst.
  apply (cov_app _ [b] l [b] l); auto. match goal with H : proper b |- _ => apply cov_one; [apply H|apply proper_spans, H|assumption] end.
Qed.

Lemma cov_alike L h Bs : cov L h Bs -> alike L (flat_map contents Bs) (flat_map contents h).
Proof.
  intros (gs & <- & H). induction H as [|b g Bs gs [] H IH]; simpl; [apply alike_refl|].
  rewrite flat_map_app. apply alike_app; auto. eapply alike_mono; eauto.
Qed.

Lemma cov_same L h Bs : cov L h Bs -> same_beyond L (flat_map contents Bs) (flat_map contents h).
Proof. intros H. apply alike_beyond, cov_alike, H. Qed.

Lemma cov_tiles L h Bs : cov L h Bs -> forall lo up, tiles lo h up -> tiles lo Bs up.
Proof.
  intros (gs & <- & H). induction H as [|b g Bs gs HC H IH]; intros lo up HT; simpl in *; auto.
  destruct (tiles_app _ _ _ _ HT) as (mid & T1 & T2).
  destruct HC as [O Sp (x & r & Ex & Lx) (i & y & Ey & Uy) _ _].
  constructor.
  - rewrite Ex in T1. inversion T1; subst. eapply same_future_trans; [eassumption|apply same_future_sym; auto].
  - rewrite Ey in T1. apply (tiles_lo mid); auto. eapply same_future_trans; [apply (tiles_last _ _ _ _ T1)|apply same_future_sym; auto].
Qed.

Lemma winv_sized L F : forall ms k c, winv L F k c ms -> forall i x, nth_error ms i = Some x -> layer_sized ops (k + i) x.
Proof.
  induction ms as [|y ms IH]; intros k c HW i x Hi; [destruct i; discriminate|]. destruct HW as [HX HW]. destruct i as [|i]; simpl in Hi.
  - inversion Hi; subst. rewrite Nat.add_0_r. destruct x as [|[b|]|b1 b2 m|[b|]]; simpl in *; auto; try tauto.
    destruct HX as (s & r & A1 & A2 & A3 & A4 & A5 & _). auto.
  - replace (k + S i) with (S k + i) by lia. eapply IH; eauto.
Qed.

Lemma topok_mass ms : topok ms -> ms <> [] -> 2 ^ (length ms - 1) <= smaller_from 0 ms.
Proof.
  intros [->|(l & x & -> & Hx)] H; [contradiction|]. rewrite app_length, smaller_app, smaller_cons. simpl length.
  replace (length l + 1 - 1) with (length l) by lia. rewrite Nat.add_0_l. pose proof (pow_pos (length l)).
  destruct x; simpl in *; try discriminate; lia.
Qed.

(** ** batches_through *)
Notation sub F G := (forall t, beyond F t -> beyond G t).

Lemma tiles_le h : forall lo up, tiles lo h up -> Forall proper h -> sub up lo.
Proof.
  induction h as [|b h IH]; intros lo up HT HP t Ht; inversion HT as [? ? H0|? ? ? ? H1 H2]; subst; [apply H0; auto|].
  inversion HP; subst. apply H1. eapply pr_le; eauto.
Qed.

Lemma tiles_uppers h : forall lo up, tiles lo h up -> Forall proper h -> Forall (fun b => sub up (upper_of b)) h.
Proof.
  induction h as [|b h IH]; intros lo up HT HP; constructor; inversion HT as [|? ? ? ? H1 H2]; inversion HP; subst.
  - eapply tiles_le; eauto.
  - eapply IH; eauto.
Qed.

Lemma proper_lt b : proper b -> ~ sub (lower_of b) (upper_of b).
Proof. intros [] H. apply pr_lt. intros t; split; auto. Qed.

Lemma ac_le_false (F G : list T) : ~ sub G F -> ac_le F G = false.
Proof. intros H. destruct (ac_le F G) eqn:E; auto. exfalso. apply H. apply ac_le_spec; auto. Qed.

Lemma through_later F h : forall lo up, tiles lo h up -> Forall proper h -> ~ sub F lo -> through_pending ops F h = Some [].
Proof.
  induction h as [|b h IH]; intros lo up HT HP HF; [reflexivity|]. inversion HT as [|? ? ? ? H1 H2]; inversion HP as [|? ? P1 P2]; subst.
  assert (HU : ~ sub F (upper_of b)). { intros H. apply HF. intros t Ht. apply H1. eapply pr_le; eauto. }
  cbn [through_pending]. fold (lower_of b). fold (upper_of b). rewrite (IH _ _ H2 P2 HU).
  rewrite (ac_le_false (lower_of b) F), (ac_le_false (upper_of b) F); auto.
  - simpl. destruct (nonempty ops b); auto.
  - intros H. apply HF. intros t Ht. apply H1, H, Ht.
Qed.

Lemma through_after F h lo up : antichain F -> same_future F lo -> tiles lo h up -> Forall proper h -> through_pending ops F h = Some [].
Proof.
  intros HA HF HT HP. destruct h as [|b h]; [reflexivity|]. inversion HT as [|? ? ? ? H1 H2]; inversion HP as [|? ? P1 P2]; subst.
  assert (Hfl : same_future F (lower_of b)) by (eapply same_future_trans; eauto).
  assert (HU : ~ sub F (upper_of b)). { intros H. apply (proper_lt b P1). intros t Ht. apply H, Hfl, Ht. }
  cbn [through_pending]. fold (lower_of b). fold (upper_of b). rewrite (through_later F h _ _ H2 P2 HU).
  rewrite (proj2 (ac_eqb_spec F (lower_of b) HA (pr_lower _ _ _ _ P1)) Hfl), (ac_le_false (upper_of b) F HU).
  rewrite Bool.andb_false_r. destruct (nonempty ops b); auto.
Qed.

Lemma through_before F h2 r : through_pending ops F h2 = Some r -> forall h1, Forall proper h1 -> Forall (fun b => sub F (upper_of b)) h1 ->
  through_pending ops F (h1 ++ h2) = Some (filter (nonempty ops) h1 ++ r).
Proof.
  intros Hr. induction h1 as [|b h1 IH]; intros HP HU; simpl app; [exact Hr|]. inversion HP as [|? ? P1 P2]; inversion HU as [|? ? U1 U2]; subst.
  cbn [through_pending filter]. fold (lower_of b). fold (upper_of b). rewrite (IH P2 U2).
  assert (E1 : ac_le (upper_of b) F = true) by (apply ac_le_spec; auto).
  assert (E2 : ac_le (lower_of b) F = true). { apply ac_le_spec. intros t Ht. eapply pr_le; eauto. }
  rewrite E1, E2. simpl. destruct (nonempty ops b); reflexivity.
Qed.

Lemma contents_nonempty bs : Forall ok bs -> flat_map contents (filter (nonempty ops) bs) = flat_map contents bs.
Proof.
  induction 1 as [|b bs Hb H IH]; simpl; auto. unfold nonempty at 1. destruct (Nat.eqb_spec (len b) 0) as [E|E]; simpl; rewrite IH; auto.
  rewrite (bl_len _ _ laws b Hb) in E. destruct (contents b); [reflexivity|discriminate].
Qed.

Lemma cov_ok L h Bs : cov L h Bs -> Forall ok Bs.
Proof. intros (gs & _ & H). induction H as [|? ? ? ? [] ? ?]; constructor; auto. Qed.

Lemma cov_uppers L h Bs (P : list T -> Prop) : (forall u v, same_future u v -> P u -> P v) -> cov L h Bs -> Forall (fun b => P (upper_of b)) h -> Forall (fun b => P (upper_of b)) Bs.
Proof.
  intros HPs (gs & <- & H). induction H as [|b g Bs gs HC H IH]; intros HP; constructor; simpl in HP; apply Forall_app in HP; destruct HP as [H1 H2].
  - destruct HC as [_ _ _ (i & y & Ey & Uy) _ _]. apply (HPs (upper_of y)); [apply same_future_sym; auto|]. rewrite Forall_forall in H1. apply H1. rewrite Ey. apply in_or_app; right; left; auto.
  - apply IH; auto.
Qed.

Lemma batches_through_alike s h1 h2 up L P n F mid : Sinv s (h1 ++ h2) up L P n -> L <> [] -> antichain F -> sub F P ->
  tiles [tmin] h1 mid -> same_future F mid ->
  exists bs, batches_through ops s F = Some bs /\ alike L (flat_map contents bs) (flat_map contents h1) /\
    Forall (fun b => sub F (upper_of b)) bs.
Proof.
  intros [A1 A2 A3 A4 A5 A6 A7 (hm & E & B1 & B2) A9 A10 A11 A12] HL HF HFP HT HM. unfold batches_through.
  pose proof A7 as HPr. apply Forall_app in HPr. destruct HPr as [P1 P2].
  destruct (ac_less_equal F tmin) eqn:Em.
  { apply ac_less_equal_spec in Em. exists []. split; auto. split; [|constructor].
    destruct h1 as [|b h1] using rev_ind; [apply alike_refl|exfalso]. clear IHh1.
    pose proof (same_future_trans _ _ _ HM (tiles_last _ _ _ _ HT)) as HM'. clear HM. rename HM' into HM. apply Forall_app in P1. destruct P1 as [_ P1]. inversion P1 as [|? ? Pb _]; subst.
    apply (proper_lt b Pb). intros t Ht. apply HM. destruct Em as (f & If & Hf). exists f. split; auto. eapply tle_trans; [exact Hf|apply tmin_le]. }
  destruct (logical s) as [|l0 ls] eqn:El.
  { exfalso. destruct L as [|l0 L]; [contradiction|]. apply (beyond_nil (T:=T) l0). apply A4. exists l0. split; [left; auto|apply tle_refl]. }
  assert (Ep : ac_le (physical s) F = true). { apply ac_le_spec. intros t Ht. apply A5, HFP, Ht. }
  rewrite Ep. rewrite <- El in *. clear El.
  assert (HmF : Forall (fun b => sub F (upper_of b)) hm).
  { eapply Forall_impl; [|exact B2]. cbv beta. intros b Hb t Ht. eapply ac_le_spec; [exact Hb|]. apply A5, HFP, Ht. }
  assert (Hsplit : exists x, h1 = hm ++ x /\ pending s = x ++ h2).
  { destruct (app_eq_app _ _ _ _ E) as (x & [[E1 E2]|[E1 E2]]); [eauto|].
    destruct x as [|y x]; [exists []; rewrite app_nil_r in *; simpl in *; auto|]. exfalso.
    assert (Fy : sub F (upper_of y)). { rewrite Forall_forall in HmF. apply HmF. rewrite E1. apply in_or_app; right; left; auto. }
    assert (Py : proper y). { rewrite Forall_forall in A7. apply A7. rewrite E, E1. rewrite !in_app_iff. left; right; left; auto. }
    destruct (tiles_app _ _ _ _ A6) as (mid' & T1 & T2). rewrite E2 in T2. inversion T2 as [|? ? ? ? S1 S2]; subst.
    pose proof (tiles_fun _ _ _ _ HT T1) as Hmid. apply (proper_lt y Py). intros t Ht. apply Fy, HM, Hmid, S1, Ht. }
  destruct Hsplit as (x & E1 & E2). rewrite E2.
  destruct (tiles_app _ _ _ _ A6) as (mid' & T1 & T2).
  apply (fun H => tiles_lo _ _ _ _ H (tiles_fun _ _ _ _ T1 HT)) in T2.
  pose proof (tiles_uppers _ _ _ HT P1) as U1. subst h1. apply Forall_app in U1. destruct U1 as [_ U1]. apply Forall_app in P1. destruct P1 as [_ Px].
  assert (U2 : Forall (fun b => sub F (upper_of b)) x). { eapply Forall_impl; [|exact U1]. cbv beta. intros b Hb t Ht. apply Hb, HM, Ht. }
  rewrite (through_before F h2 [] (through_after F h2 mid _ HF HM T2 P2) x Px U2). eexists. split; [reflexivity|]. rewrite app_nil_r.
  fold (seq (merging s)). split.
  - rewrite !flat_map_app, !contents_nonempty.
    + apply alike_app; [|apply alike_refl]. eapply alike_mono; [|apply (cov_alike _ _ _ B1)]. apply A4.
    + eapply Forall_impl; [|exact Px]. intros b []; auto.
    + eapply cov_ok; eauto.
  - apply Forall_app. split.
    + apply Forall_forall. intros b Hb. apply filter_In in Hb. destruct Hb as [Hb _].
      pose proof (cov_uppers _ _ _ (fun u => sub F u) (fun u v Huv Hu t Ht => proj1 (Huv t) (Hu t Ht)) B1 HmF) as Hf. rewrite Forall_forall in Hf. apply Hf; auto.
    + apply Forall_forall. intros b Hb. apply filter_In in Hb. destruct Hb as [Hb _]. rewrite Forall_forall in U2. apply U2; auto.
Qed.

Lemma batches_through_ok s h1 h2 up L P n F mid : Sinv s (h1 ++ h2) up L P n -> L <> [] -> antichain F -> sub F P ->
  tiles [tmin] h1 mid -> same_future F mid ->
  exists bs, batches_through ops s F = Some bs /\ same_beyond L (flat_map contents bs) (flat_map contents h1) /\
    Forall (fun b => sub F (upper_of b)) bs.
Proof.
  intros HS HL HF HP HT HM. destruct (batches_through_alike s h1 h2 up L P n F mid HS HL HF HP HT HM) as (bs & E1 & E2 & E3).
  exists bs. split; [auto|]. split; [apply alike_beyond|]; auto.
Qed.

(** The empty frontier: every batch. *)
Lemma through_all h : through_pending ops [] h = Some (filter (nonempty ops) h).
Proof. induction h as [|b h IH]; [reflexivity|]. cbn [through_pending filter]. rewrite IH. simpl. destruct (nonempty ops b); reflexivity. Qed.

Lemma batches_through_all_alike s h up L P n : Sinv s h up L P n -> L <> [] ->
  exists bs, batches_through ops s [] = Some bs /\ alike L (flat_map contents bs) (flat_map contents h) /\ Forall ok bs.
Proof.
  intros HS HL. pose proof (Sinv_cov _ _ _ _ _ _ HS) as HC. pose proof (cov_ok _ _ _ HC) as HO. destruct HS as [A1 A2 A3 A4 A5 A6 A7 A8 A9 A10 A11 A12].
  unfold batches_through. simpl ac_less_equal. cbn match.
  destruct (logical s) as [|l0 ls] eqn:El.
  { exfalso. destruct L as [|l0 L]; [contradiction|]. apply (beyond_nil (T:=T) l0). apply A4. exists l0. split; [left; auto|apply tle_refl]. }
  rewrite <- El in *. simpl ac_le. cbn match. rewrite through_all. eexists. split; [reflexivity|]. rewrite <- filter_app.
  change (flat_map layer_batches (rev (merging s)) ++ pending s) with (map_batches s). split.
  - rewrite contents_nonempty by auto. eapply alike_mono; [|apply (cov_alike _ _ _ HC)]. apply A4.
  - apply Forall_forall. intros b Hb. apply filter_In in Hb. rewrite Forall_forall in HO. apply HO. tauto.
Qed.

Lemma batches_through_all s h up L P n : Sinv s h up L P n -> L <> [] ->
  exists bs, batches_through ops s [] = Some bs /\ same_beyond L (flat_map contents bs) (flat_map contents h) /\ Forall ok bs.
Proof.
  intros HS HL. destruct (batches_through_all_alike s h up L P n HS HL) as (bs & E1 & E2 & E3). exists bs. split; [auto|]. split; [apply alike_beyond|]; auto.
Qed.

Lemma through_in F h : forall r, through_pending ops F h = Some r -> incl r h.
Proof.
  induction h as [|b h IH]; intros r Hr; cbn [through_pending] in Hr.
  - inversion Hr. intros x [].
  - destruct (nonempty ops b).
    + destruct (negb _ && negb _); [discriminate|]. destruct (through_pending ops F h) as [r'|]; [|discriminate]. inversion Hr; subst.
      specialize (IH _ eq_refl). destruct (ac_le _ _); intros x Hx; [destruct Hx as [->|Hx]; [left; auto|right; auto]|right; auto].
    + right. apply (IH r); auto.
Qed.

Lemma batches_through_in s F bs : batches_through ops s F = Some bs -> incl bs (map_batches s).
Proof.
  unfold batches_through, map_batches. destruct (ac_less_equal F tmin); [intros H; inversion H; intros x []|].
  destruct (logical s); [discriminate|]. destruct (ac_le _ _); [|discriminate].
  destruct (through_pending ops F (pending s)) as [r|] eqn:E; [|discriminate]. intros H; inversion H; subst.
  intros x Hx. apply in_app_or in Hx. apply in_or_app. destruct Hx as [Hx|Hx]; [left; apply filter_In in Hx; tauto|right; eapply through_in; eauto].
Qed.

Lemma read_upper_ok h : forall lo up, tiles lo h up -> same_future (fold_left (fun _ b => upper_of b) h lo) up.
Proof. induction h as [|b h IH]; intros lo up H; inversion H; subst; simpl; auto. Qed.

Lemma cov_spans L h Bs : cov L h Bs -> Forall (spans ops) Bs.
Proof. intros (gs & _ & H). induction H; constructor; auto. eapply cv_spans; eauto. Qed.
Lemma read_upper_antichain h : Forall (spans ops) h -> forall lo, antichain lo -> antichain (fold_left (fun _ b => upper_of b) h lo).
Proof. induction 1 as [|b h Hb H IH]; intros lo Hlo; cbn [fold_left]; auto. apply IH, Hb. Qed.

(** The batches of the trace have well-formed intervals too. *)
Record strict (b : B) : Prop := {
  sb_lower : antichain (lower_of b); sb_upper : antichain (upper_of b);
  sb_le : sub (upper_of b) (lower_of b); sb_lt : ~ sub (lower_of b) (upper_of b) }.

Lemma cov_strict L h Bs lo up : cov L h Bs -> tiles lo h up -> Forall proper h -> Forall strict Bs.
Proof.
  intros (gs & <- & H). revert lo up. induction H as [|b g Bs gs HC H IH]; intros lo up HT HP; constructor; simpl in *;
    apply Forall_app in HP; destruct HP as [P1 P2]; destruct (tiles_app _ _ _ _ HT) as (mid & T1 & T2).
  - destruct HC as [O Sp (x & r & Ex & Lx) (i & y & Ey & Uy) _ _].
    assert (Px : proper x). { rewrite Ex in P1. inversion P1; auto. }
    assert (Py : proper y). { rewrite Ey in P1. apply Forall_app in P1. destruct P1 as [_ P1]. inversion P1; auto. }
    assert (Eup : sub (upper_of y) (upper_of x)).
    { assert (Em : same_future mid (upper_of y)) by (apply (tiles_last lo i); rewrite <- Ey; exact T1).
      rewrite Ex in T1, P1. inversion T1 as [|? ? ? ? S1 S2]. inversion P1 as [|? ? Q1 Q2]. intros t Ht. apply (tiles_le _ _ _ S2 Q2), Em, Ht. }
    constructor; [apply Sp|apply Sp|apply Sp|].
    intros Hs. apply (proper_lt x Px). intros t Ht. apply Eup, Uy, Hs, Lx, Ht.
  - eapply IH; eauto.
Qed.

Lemma tiles_le' h : forall lo up, tiles lo h up -> Forall strict h -> sub up lo.
Proof.
  induction h as [|b h IH]; intros lo up HT HP t Ht; inversion HT as [? ? H0|? ? ? ? H1 H2]; subst; [apply H0; auto|].
  inversion HP; subst. apply H1. eapply sb_le; eauto.
Qed.
Lemma tiles_uppers' h : forall lo up, tiles lo h up -> Forall strict h -> Forall (fun b => sub up (upper_of b)) h.
Proof.
  induction h as [|b h IH]; intros lo up HT HP; constructor; inversion HT as [|? ? ? ? H1 H2]; inversion HP; subst.
  - eapply tiles_le'; eauto.
  - eapply IH; eauto.
Qed.

Lemma tiles_past h : forall lo up b, tiles lo h up -> Forall strict h -> In b h -> ~ sub lo (upper_of b).
Proof.
  induction h as [|b0 h IH]; intros lo up b HT HS Hb; [destruct Hb|]. inversion HT as [|? ? ? ? S1 S2]; inversion HS as [|? ? B1 B2]; subst.
  destruct Hb as [->|Hb].
  - intros Hs. apply (sb_lt b B1). intros t Ht. apply Hs, S1, Ht.
  - intros Hs. apply (IH _ _ _ S2 B2 Hb). intros t Ht. apply Hs, S1, (sb_le b0 B1), Ht.
Qed.

(** Advancing over empty batches does not pass a batch with updates. *)
Definition adv_step (up : list T) (b : B) := if negb (nonempty ops b) && ac_eqb (lower_of b) up then upper_of b else up.

Lemma advance_upper_ok Bs lo up : tiles lo Bs up -> Forall strict Bs -> forall bs2 bs1 F, Bs = bs1 ++ bs2 -> antichain F ->
  let F' := fold_left adv_step bs2 F in
  antichain F' /\ sub F' F /\ forall b, In b Bs -> nonempty ops b = true -> sub F' (upper_of b) -> sub F (upper_of b).
Proof.
  intros HT HS. induction bs2 as [|b' bs2 IH]; intros bs1 F E HF; simpl; auto.
  assert (E' : Bs = (bs1 ++ [b']) ++ bs2) by (rewrite <- app_assoc; exact E).
  unfold adv_step at 2 4 6. destruct (negb (nonempty ops b') && ac_eqb (lower_of b') F) eqn:Eb.
  - apply andb_prop in Eb. destruct Eb as [Eb1 Eb2]. pose proof HS as HS0. pose proof HT as HT0. rewrite E in HS0, HT0. apply Forall_app in HS0. destruct HS0 as [S1 S2]. inversion S2 as [|? ? Sb' S3].
    apply ac_eqb_spec in Eb2; [|apply Sb'|auto].
    destruct (IH (bs1 ++ [b']) (upper_of b') E' (sb_upper b' Sb')) as (A1 & A2 & A3). split; auto. split.
    + intros t Ht. apply Eb2, (sb_le b' Sb'), A2, Ht.
    + intros b Hb Hne Hs. specialize (A3 b Hb Hne Hs). destruct (tiles_app _ _ _ _ HT0) as (mid & T1 & T2).
      inversion T2 as [|? ? ? ? Q1 Q2]. rewrite E in Hb. apply in_app_or in Hb. destruct Hb as [Hb|[Hb|Hb]].
      * pose proof (tiles_uppers' _ _ _ T1 S1) as HU. rewrite Forall_forall in HU. intros t Ht. apply (HU b Hb), Q1, Eb2, Ht.
      * rewrite Hb, Hne in Eb1. discriminate.
      * exfalso. exact (tiles_past _ _ _ _ Q2 S3 Hb A3).
  - exact (IH (bs1 ++ [b']) F E' HF).
Qed.
End SpineP.
