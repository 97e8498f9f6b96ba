From Verif Require Export Spec.AgentSpec Proofs.SpineP Proofs.CaptureP.
From Verif Require Import Base.Collections.

(** ** Lists *)
Lemma set_nth_at {A} (l1 l2 : list A) x y : set_nth (l1 ++ y :: l2) (length l1) x = l1 ++ x :: l2.
Proof.
  unfold set_nth. rewrite firstn_app, Nat.sub_diag, firstn_all, firstn_O, app_nil_r. f_equal. f_equal.
  rewrite skipn_app, skipn_all2 by lia. replace (S (length l1) - length l1) with 1 by lia. reflexivity.
Qed.
Lemma nth_set_eq {A} (l : list A) i x : i < length l -> nth_error (set_nth l i x) i = Some x.
Proof.
  intros H. unfold set_nth. rewrite nth_error_app2; rewrite firstn_length_le by lia; [|lia]. rewrite Nat.sub_diag. reflexivity.
Qed.
Lemma nth_set_neq {A} (l : list A) i j x : i < length l -> j <> i -> nth_error (set_nth l i x) j = nth_error l j.
Proof.
  intros H Hj. destruct (nth_error l i) as [y|] eqn:E; [|apply nth_error_None in E; lia].
  apply nth_error_split in E as (l1 & l2 & -> & <-). rewrite set_nth_at.
  destruct (Nat.lt_ge_cases j (length l1)) as [Hl|Hg].
  - rewrite !nth_error_app1; auto.
  - rewrite !nth_error_app2 by auto. destruct (j - length l1) as [|k] eqn:Ek; [lia|]. reflexivity.
Qed.
Lemma set_nth_length {A} (l : list A) i x : i < length l -> length (set_nth l i x) = length l.
Proof. intros H. unfold set_nth. rewrite app_length, firstn_length_le by lia. cbn [length]. rewrite skipn_length. lia. Qed.

(** ** Counting holds *)
Section Holds.
Context {T : Type} {TT : Time T}.
Lemma weight_plus_one (F : list T) t : (0 <= weight (plus_one F) t)%Z /\ ((0 < weight (plus_one F) t)%Z <-> In t F).
Proof.
  induction F as [|x F [I1 I2]]; [cbn; split; [lia|split; [lia|tauto]]|]. cbn [plus_one map]. rewrite weight_cons'. cbn [fst snd]. fold (plus_one F).
  destruct (eqb_spec x t) as [->|Hn]; cbn [dplus dzero Diff_Z In].
  - split; [lia|]. split; [auto|lia].
  - split; [lia|]. rewrite Z.add_0_l, I2. split; [auto|intros [E|H]; [contradiction|auto]].
Qed.
Lemma weight_minus_one (F : list T) t : (weight (minus_one F) t = - weight (plus_one F) t)%Z.
Proof.
  induction F as [|x F IH]; auto. cbn [plus_one minus_one map]. rewrite !weight_cons'. cbn [fst snd]. fold (plus_one F). fold (minus_one F). rewrite IH.
  destruct (eqb x t); cbn [dplus dzero Diff_Z]; lia.
Qed.
Definition holds (fs : list (list T)) : list (T * Z) := flat_map plus_one fs.
Lemma holds_spec fs t : (0 <= weight (holds fs) t)%Z /\ ((0 < weight (holds fs) t)%Z <-> exists F, In F fs /\ In t F).
Proof.
  induction fs as [|F fs [I1 I2]]; [cbn; split; [lia|split; [lia|intros (F & [] & _)]]|]. cbn [holds flat_map]. fold (holds fs). rewrite weight_app. cbn [dplus Diff_Z].
  destruct (weight_plus_one F t) as [P1 P2]. split; [lia|]. split.
  - intros H. destruct (Z.lt_ge_cases 0 (weight (plus_one F) t)) as [Hp|Hp]; [exists F; split; [left; auto|tauto]|].
    destruct I2 as [I2 _]. destruct I2 as (G & HG & Ht); [lia|]. exists G. split; [right; auto|auto].
  - intros (G & [<-|HG] & Ht); [apply P2 in Ht; lia|]. destruct I2 as [_ I2]. assert (0 < weight (holds fs) t)%Z by (apply I2; exists G; auto). lia.
Qed.
Lemma holds_frontier (m : ma_counts T) fs : same_weights m (holds fs) -> forall t, beyond (ma_frontier m) t <-> exists F, In F fs /\ beyond F t.
Proof.
  intros HS t. rewrite ma_frontier_beyond. split.
  - intros (t' & Hle & Hw). rewrite (HS t') in Hw. apply holds_spec in Hw as (F & HF & Ht). exists F. split; auto. exists t'. auto.
  - intros (F & HF & (t' & Ht & Hle)). exists t'. split; auto. rewrite (HS t'). apply holds_spec. exists F. auto.
Qed.
Lemma holds_perm fs gs : Permutation fs gs -> same_weights (holds fs) (holds gs).
Proof. intros H t. apply weight_perm. apply Permutation_flat_map. auto. Qed.
(** replacing [lower] by [upper] *)
Lemma holds_adjust (m : ma_counts T) lower upper fs gs : same_weights m (holds (lower :: fs)) -> Permutation gs (upper :: fs) ->
  same_weights (ma_update_iter (ma_update_iter m (plus_one upper)) (minus_one lower)) (holds gs).
Proof.
  intros H HP t. rewrite (holds_perm _ _ HP t). unfold ma_update_iter. rewrite !weight_app, (H t), weight_minus_one. cbn [holds flat_map]. fold (holds fs). rewrite !weight_app. cbn [dplus Diff_Z]. lia.
Qed.
Lemma ma_frontier_ac (m : ma_counts T) : antichain (ma_frontier m).
Proof. apply ac_from_antichain. Qed.
End Holds.

Section World.
Context {B M D T R : Type} {OD : Ord D} {TT : Time T} {DR : Diff R}.
Variable ops : BatchOps B M T.
Variable contents : B -> list (D * T * R).
Variable laws : BatchLaws ops contents.
Notation proper := (proper ops contents laws).
Notation Sinv := (Sinv ops contents laws).
Notation lower_of := (lower_of ops). Notation upper_of := (upper_of ops). Notation since_of := (since_of ops).
Notation world := (World B M T).

Record box_inv (bx : TraceBox B M T) (ags : list (Agent T)) (h : list B) (up : list T) : Prop := {
  bi_logical : same_weights (bx_logical bx) (holds (map (@ag_logical T) ags));
  bi_physical : same_weights (bx_physical bx) (holds (map (@ag_physical T) ags));
  bi_sinv : exists n, Sinv (bx_trace bx) h up (ma_frontier (bx_logical bx)) (ma_frontier (bx_physical bx)) n
}.
Lemma box_perm bx ags ags' h up : Permutation ags ags' -> box_inv bx ags h up -> box_inv bx ags' h up.
Proof.
  intros HP [H1 H2 H3]. constructor; auto; intros t; [rewrite (H1 t)|rewrite (H2 t)]; apply holds_perm; apply Permutation_map; auto.
Qed.
Lemma adjust_logical_ok bx a ags L' h up : box_inv bx (a :: ags) h up -> (forall t, beyond L' t -> beyond (ag_logical a) t) ->
  box_inv (adjust_logical bx (ag_logical a) L') ({| ag_logical := L'; ag_physical := ag_physical a |} :: ags) h up.
Proof.
  intros [H1 H2 (n & HS)] HL. cbn [map] in H1, H2.
  assert (HW : same_weights (ma_update_iter (ma_update_iter (bx_logical bx) (plus_one L')) (minus_one (ag_logical a))) (holds (L' :: map (@ag_logical T) ags))) by (apply (holds_adjust _ _ _ (map (@ag_logical T) ags)); auto).
  constructor; cbn [adjust_logical bx_logical bx_physical bx_trace map ag_logical ag_physical]; auto. exists n. apply (Sinv_logical _ _ _ _ _ _ _ _ _ _ HS).
  intros t. rewrite (holds_frontier _ _ HW t), (holds_frontier _ _ H1 t). intros (F & [<-|HF] & Hb); [exists (ag_logical a); split; [left; auto|auto]|exists F; split; [right; auto|auto]].
Qed.
Lemma adjust_physical_ok bx a ags P' h up : box_inv bx (a :: ags) h up -> (forall t, beyond P' t -> beyond (ag_physical a) t) ->
  exists bx', adjust_physical ops bx (ag_physical a) P' = Some bx' /\ box_inv bx' ({| ag_logical := ag_logical a; ag_physical := P' |} :: ags) h up.
Proof.
  intros [H1 H2 (n & HS)] HL. cbn [map] in H1, H2.
  assert (HW : same_weights (ma_update_iter (ma_update_iter (bx_physical bx) (plus_one P')) (minus_one (ag_physical a))) (holds (P' :: map (@ag_physical T) ags))) by (apply (holds_adjust _ _ _ (map (@ag_physical T) ags)); auto).
  unfold adjust_physical. set (c := ma_update_iter _ (minus_one _)) in *.
  destruct (Sinv_physical ops contents laws _ _ _ _ _ _ (ma_frontier c) HS) as (s' & E & HS').
  { intros t. rewrite (holds_frontier _ _ HW t), (holds_frontier _ _ H2 t). intros (F & [<-|HF] & Hb); [exists (ag_physical a); split; [left; auto|auto]|exists F; split; [right; auto|auto]]. }
  rewrite E. eexists. split; [reflexivity|]. constructor; cbn [bx_logical bx_physical bx_trace map ag_logical ag_physical]; auto. exists n. auto.
Qed.
(** a handle that holds nothing *)
Definition idle : Agent T := {| ag_logical := []; ag_physical := [] |}.
Lemma box_idle bx ags h up : box_inv bx ags h up <-> box_inv bx (idle :: ags) h up.
Proof. split; intros [H1 H2 H3]; constructor; auto. Qed.

Lemma clone_ok bx a ags h up : box_inv bx ags h up -> In a ags ->
  exists bx', agent_clone ops bx a = Some (bx', a) /\ box_inv bx' (ags ++ [a]) h up.
Proof.
  intros I Ha. unfold agent_clone.
  (* the copy's frontiers are already held by the original *)
  destruct I as [H1 H2 (n & HS)].
  assert (W1 : same_weights (ma_update_iter (ma_update_iter (bx_logical bx) (plus_one (ag_logical a))) (minus_one [])) (holds (map (@ag_logical T) (ags ++ [a])))).
  { apply (holds_adjust _ _ _ (map (@ag_logical T) ags)); [exact H1|]. rewrite map_app. symmetry. apply Permutation_cons_append. }
  assert (W2 : same_weights (ma_update_iter (ma_update_iter (bx_physical bx) (plus_one (ag_physical a))) (minus_one [])) (holds (map (@ag_physical T) (ags ++ [a])))).
  { apply (holds_adjust _ _ _ (map (@ag_physical T) ags)); [exact H2|]. rewrite map_app. symmetry. apply Permutation_cons_append. }
  assert (HSL : Sinv (bx_trace (adjust_logical bx [] (ag_logical a))) h up (ma_frontier (bx_logical (adjust_logical bx [] (ag_logical a)))) (ma_frontier (bx_physical bx)) n).
  { apply (Sinv_logical _ _ _ _ _ _ _ _ _ _ HS). intros t. rewrite (holds_frontier _ _ W1 t), (holds_frontier _ _ H1 t). intros (F & HF & Hb). exists F. split; auto.
    rewrite map_app in HF. apply in_app_or in HF as [HF|[<-|[]]]; auto. apply in_map. auto. }
  unfold adjust_physical. change (bx_physical (adjust_logical bx [] (ag_logical a))) with (bx_physical bx). set (c := ma_update_iter (ma_update_iter (bx_physical bx) _) (minus_one [])) in *.
  destruct (Sinv_physical ops contents laws _ _ _ _ _ _ (ma_frontier c) HSL) as (s' & E & HS').
  { intros t. rewrite (holds_frontier _ _ W2 t), (holds_frontier _ _ H2 t). intros (F & HF & Hb). exists F. split; auto.
    rewrite map_app in HF. apply in_app_or in HF as [HF|[<-|[]]]; auto. apply in_map. auto. }
  rewrite E. eexists. split; [reflexivity|]. constructor; cbn [bx_logical bx_physical bx_trace]; auto. exists n. exact HS'.
Qed.
Lemma drop_ok bx a ags h up : box_inv bx (a :: ags) h up -> exists bx', agent_drop ops bx a = Some bx' /\ box_inv bx' ags h up.
Proof.
  intros I. unfold agent_drop. pose proof (adjust_logical_ok _ _ _ [] _ _ I (fun t H => match beyond_nil t H with end)) as I1.
  destruct (adjust_physical_ok _ _ _ [] _ _ I1 (fun t H => match beyond_nil t H with end)) as (bx' & E & I2). exists bx'. split; [exact E|]. apply box_idle. exact I2.
Qed.

(** ** The world *)
Record w_inv (w : world) (h : list B) : Prop := {
  wi_box : match w_box w with Some bx => box_inv bx (live w) h (w_upper w) /\ live w <> [] | None => live w = [] end;
  wi_tiles : tiles ops [tmin] h (w_upper w);
  wi_proper : Forall proper h;
  wi_upper : antichain (w_upper w);
  wi_agents : Forall (fun a => antichain (ag_logical a) /\ antichain (ag_physical a)) (live w);
  wi_closed : w_writer w = None -> h <> []
}.
Lemma live_split (w : world) i a : agent_at w i = Some a -> exists l1 l2, w_agents w = l1 ++ Some a :: l2 /\ i = length l1.
Proof.
  unfold agent_at. intros H. destruct (nth_error (w_agents w) i) as [[a'|]|] eqn:E; try discriminate. inversion H; subst a'.
  apply nth_error_split in E as (l1 & l2 & E & <-). exists l1, l2. auto.
Qed.
Definition alive (l : list (option (Agent T))) : list (Agent T) := flat_map (fun o => match o with Some a => [a] | None => [] end) l.
Lemma live_alive (w : world) : live w = alive (w_agents w). Proof. reflexivity. Qed.
Lemma alive_app l1 l2 : alive (l1 ++ l2) = alive l1 ++ alive l2. Proof. apply flat_map_app. Qed.
Lemma alive_exists l : existsb (fun o : option (Agent T) => match o with Some _ => true | None => false end) l = true <-> alive l <> [].
Proof. induction l as [|[a|] l IH]; cbn; [split; congruence|split; congruence|exact IH]. Qed.

Lemma box_insert bx ags h up b : box_inv bx ags h up -> proper b -> same_future (lower_of b) up -> (forall t, beyond (since_of b) t) ->
  exists s', spine_insert ops (bx_trace bx) b = Some s' /\
    box_inv {| bx_logical := bx_logical bx; bx_physical := bx_physical bx; bx_trace := s' |} ags (h ++ [b]) (upper_of b).
Proof.
  intros [H1 H2 (n & HS)] Pb Hl Hk. destruct (Sinv_insert ops contents laws _ _ _ _ _ _ b HS Pb Hl) as (s' & E & HS'); [intros t _; apply Hk|].
  exists s'. split; auto. constructor; auto. eexists; eauto.
Qed.
Lemma tiles_snoc h : forall lo up b, tiles ops lo h up -> same_future up (lower_of b) -> tiles ops lo (h ++ [b]) (upper_of b).
Proof.
  induction h as [|x h IH]; intros lo up b HT HS; inversion HT as [? ? H0|]; subst; cbn [app].
  - constructor; [intros t; rewrite (H0 t); apply HS|]. constructor. intros t; tauto.
  - constructor; auto. apply (IH _ up); auto.
Qed.

Lemma insert_ok w h up b hint : w_inv w h -> w_writer w = Some up -> proper b -> same_future (lower_of b) up -> (forall t, beyond (since_of b) t) ->
  exists w', writer_insert ops w up b hint = Some w' /\ w_inv w' (h ++ [b]) /\ w_writer w' = Some (upper_of b) /\ w_agents w' = w_agents w /\
  w_listeners w' = map (fun o => match o with Some (true, l) => Some (true, push_back [IBatch b hint; IFrontier (upper_of b)] l) | o => o end) (w_listeners w).
Proof.
  intros I Hw Pb Hl Hs. assert (Hup : w_upper w = up) by (unfold w_upper; rewrite Hw; auto). unfold writer_insert.
  assert (E1 : ac_eqb up (d_lower (b_desc ops b)) = true). { apply ac_eqb_spec; [rewrite <- Hup; apply I|apply Pb|]. intros t. rewrite (Hl t). tauto. }
  assert (E2 : ac_eqb (d_lower (b_desc ops b)) (d_upper (b_desc ops b)) = false).
  { clear E1. destruct (ac_eqb (d_lower (b_desc ops b)) (d_upper (b_desc ops b))) eqn:E; auto. destruct (pr_lt _ _ _ _ Pb). apply (ac_eqb_spec (lower_of b) (upper_of b)); [apply Pb|apply Pb|exact E]. }
  rewrite E1, E2. cbn [negb].
  assert (Hrest : forall box, match box with Some bx => box_inv bx (live w) (h ++ [b]) (upper_of b) /\ live w <> [] | None => live w = [] end ->
    w_inv {| w_box := box; w_agents := w_agents w; w_writer := Some (d_upper (b_desc ops b)); w_listeners := map (fun o => match o with Some (true, l) => Some (true, push_back [IBatch b hint; IFrontier (upper_of b)] l) | o => o end) (w_listeners w) |} (h ++ [b])).
  { intros box Hb. destruct I. constructor; auto.
    - apply (tiles_snoc _ _ (w_upper w)); auto. rewrite Hup. intros t. rewrite (Hl t). tauto.
    - apply Forall_app. auto.
    - apply Pb.
    - discriminate. }
  pose proof (wi_box _ _ I) as Hb. destruct (w_box w) as [bx|].
  - destruct Hb as [Hb Hne]. rewrite Hup in Hb. destruct (box_insert _ _ _ _ b Hb Pb Hl Hs) as (s' & E & Hb'). rewrite E. eexists. split; [reflexivity|]. split; [|auto]. apply Hrest. auto.
  - eexists. split; [reflexivity|]. split; [|auto]. apply Hrest. auto.
Qed.

Lemma empty_proper lo up : antichain lo -> antichain up -> (forall t, beyond up t -> beyond lo t) -> ac_eqb lo up = false ->
  exists b, b_empty ops lo up = Some b /\ proper b /\ contents b = [] /\ lower_of b = lo /\ upper_of b = up /\ (forall t, beyond (since_of b) t).
Proof.
  intros H1 H2 H3 H4. assert (Hne : lo <> []). { intros ->. destruct up as [|t up]; [discriminate|]. apply (beyond_nil t). apply H3. exists t. split; [left; auto|apply tle_refl]. }
  destruct (bl_empty _ _ laws lo up Hne) as (b & E & Ho & Hc & El & Eu & Hs). exists b. split; [auto|split; [|auto]].
  constructor; rewrite ?El, ?Eu; auto. intros HS. apply ac_eqb_spec in HS; auto. congruence.
Qed.
Lemma seal_ok w h at_ up : w_inv w h -> w_writer w = Some at_ -> antichain up -> (forall t, beyond up t -> beyond at_ t) ->
  exists w' bs, writer_seal ops w at_ up = Some (w', bs) /\ w_inv w' (h ++ map fst bs) /\ w_writer w' = Some (if ac_eqb at_ up then at_ else up) /\ w_agents w' = w_agents w /\
  (forall x, In x bs -> contents (fst x) = [] /\ snd x = None) /\
  w_listeners w' = map (fun o => match o with Some (true, l) => Some (true, push_back (announce ops bs) l) | o => o end) (w_listeners w).
Proof.
  intros I Hw Hac Hle. unfold writer_seal. destruct (ac_eqb at_ up) eqn:Ee; cbn [negb].
  - exists w, []. cbn [map]. rewrite app_nil_r. split; [auto|split; [auto|split; [auto|split; [auto|split; [intros x []|]]]]].
    rewrite <- (map_id (w_listeners w)) at 1. apply map_ext. intros [[[|] l]|]; auto. unfold push_back. cbn [announce flat_map]. rewrite app_nil_r. destruct l; auto.
  - assert (Hat : antichain at_) by (pose proof (wi_upper _ _ I) as H; unfold w_upper in H; rewrite Hw in H; auto).
    destruct (empty_proper at_ up Hat Hac Hle Ee) as (b & E & Pb & Hc & El & Eu & Hs). rewrite E.
    destruct (insert_ok w h at_ b None I Hw Pb) as (w' & E' & I' & Hw' & Ha' & Hl'); [rewrite El; intros t; reflexivity|auto|]. rewrite E'. exists w', [(b, None)].
    split; [auto|split; [auto|split; [rewrite Hw', Eu; auto|split; [auto|split]]]].
    + intros x [<-|[]]. auto.
    + rewrite Hl'. apply map_ext. intros [[[|] l]|]; auto.
Qed.

Lemma step_ok w h c : w_inv w h -> legal ops contents laws w c ->
  exists w' bs, w_step ops w c = Some (w', bs) /\ w_inv w' (h ++ map fst bs).
Proof.
  intros I HL. destruct c; cbn [w_step].
  - pose proof (wi_box _ _ I) as Hb. destruct (w_box w) as [bx|] eqn:Eb; [|exists w, []; rewrite app_nil_r; auto].
    destruct (agent_at w i) as [a|] eqn:Ea; [|exists w, []; rewrite app_nil_r; auto]. destruct Hb as [Hb Hne].
    destruct (live_split _ _ _ Ea) as (l1 & l2 & El & _).
    assert (Ha : In a (live w)) by (rewrite live_alive, El, alive_app; apply in_or_app; right; left; auto).
    destruct (clone_ok _ a _ _ _ Hb Ha) as (bx' & E & Hb'). rewrite E. eexists _, _. split; [reflexivity|]. rewrite app_nil_r. destruct I. 
    constructor; auto; unfold w_upper; cbn [w_box w_agents w_writer live]; try rewrite live_alive; cbn [w_agents]; rewrite ?alive_app; cbn [alive flat_map]; rewrite ?app_nil_r.
    + split; [exact Hb'|]. destruct (alive (w_agents w)); discriminate.
    + apply Forall_app. split; [exact wi_agents0|]. constructor; [|constructor]. apply (proj1 (Forall_forall _ _) wi_agents0 a Ha).
  - pose proof (wi_box _ _ I) as Hb. destruct (w_box w) as [bx|] eqn:Eb; [|exists w, []; rewrite app_nil_r; auto].
    destruct (agent_at w i) as [a|] eqn:Ea; [|exists w, []; rewrite app_nil_r; auto]. destruct Hb as [Hb Hne].
    destruct (live_split _ _ _ Ea) as (l1 & l2 & El & Ei).
    assert (HP : Permutation (live w) (a :: alive l1 ++ alive l2)) by (rewrite live_alive, El, alive_app; cbn [alive flat_map app]; symmetry; apply Permutation_middle).
    destruct (drop_ok _ a _ _ _ (box_perm _ _ _ _ _ HP Hb)) as (bx' & E & Hb'). rewrite E. eexists _, _. split; [reflexivity|]. rewrite app_nil_r.
    assert (Hl : alive (set_nth (w_agents w) i None) = alive l1 ++ alive l2) by (rewrite El, Ei, set_nth_at, alive_app; reflexivity).
    destruct I. constructor; auto; unfold w_upper; cbn [w_box w_agents w_writer]; rewrite ?live_alive; cbn [w_agents]; rewrite ?Hl.
    + destruct (existsb _ _) eqn:Ex; [apply alive_exists in Ex; rewrite Hl in Ex; auto|]. 
      destruct (alive l1 ++ alive l2) as [|x y] eqn:El2; auto. assert (Hx : alive (set_nth (w_agents w) i None) <> []) by (rewrite Hl; discriminate). apply alive_exists in Hx. congruence.
    + apply (Permutation_Forall HP) in wi_agents0. inversion wi_agents0; auto.
  - pose proof (wi_box _ _ I) as Hb. destruct (w_box w) as [bx|] eqn:Eb; [|exists w, []; rewrite app_nil_r; auto].
    destruct (agent_at w i) as [a|] eqn:Ea; [|exists w, []; rewrite app_nil_r; auto]. destruct Hb as [Hb Hne].
    destruct (live_split _ _ _ Ea) as (l1 & l2 & El & Ei).
    assert (HP : forall a, Permutation (alive (l1 ++ Some a :: l2)) (a :: alive l1 ++ alive l2)) by (intros x; rewrite alive_app; cbn [alive flat_map app]; symmetry; apply Permutation_middle).
    unfold agent_set_logical. eexists _, _. split; [reflexivity|]. rewrite app_nil_r.
    set (temp := antichain_join (ag_logical a) F). set (a' := {| ag_logical := temp; ag_physical := ag_physical a |}).
    assert (Hl : alive (set_nth (w_agents w) i (Some a')) = alive (l1 ++ Some a' :: l2)) by (rewrite El, Ei, set_nth_at; reflexivity).
    assert (HPw : Permutation (live w) (a :: alive l1 ++ alive l2)) by (rewrite live_alive, El; apply HP).
    assert (Hb' : box_inv (adjust_logical bx (ag_logical a) temp) (a' :: alive l1 ++ alive l2) h (w_upper w)).
    { apply adjust_logical_ok; [apply (box_perm _ _ _ _ _ HPw Hb)|]. intros t Ht. apply (antichain_join_beyond (ag_logical a) F t) in Ht. tauto. }
    destruct I. constructor; auto; unfold w_upper; cbn [w_box w_agents w_writer]; rewrite ?live_alive; cbn [w_agents]; rewrite ?Hl.
    + split; [apply (box_perm _ _ _ _ _ (Permutation_sym (HP a')) Hb')|]. intros E0. pose proof (HP a') as HPa. rewrite E0 in HPa. apply Permutation_nil in HPa. discriminate.
    + apply (Permutation_Forall HPw) in wi_agents0. inversion wi_agents0 as [|? ? [A1 A2] A3]; subst. apply (Permutation_Forall (Permutation_sym (HP a'))). constructor; auto. split; auto. apply antichain_join_antichain.
  - pose proof (wi_box _ _ I) as Hb. destruct (w_box w) as [bx|] eqn:Eb; [|exists w, []; rewrite app_nil_r; auto].
    destruct (agent_at w i) as [a|] eqn:Ea; [|exists w, []; rewrite app_nil_r; auto]. destruct Hb as [Hb Hne].
    destruct (live_split _ _ _ Ea) as (l1 & l2 & El & Ei).
    assert (HP : forall a, Permutation (alive (l1 ++ Some a :: l2)) (a :: alive l1 ++ alive l2)) by (intros x; rewrite alive_app; cbn [alive flat_map app]; symmetry; apply Permutation_middle).
    unfold agent_set_physical. set (temp := antichain_join (ag_physical a) F). set (a' := {| ag_logical := ag_logical a; ag_physical := temp |}).
    assert (HPw : Permutation (live w) (a :: alive l1 ++ alive l2)) by (rewrite live_alive, El; apply HP).
    destruct (adjust_physical_ok bx a (alive l1 ++ alive l2) temp h (w_upper w) (box_perm _ _ _ _ _ HPw Hb)) as (bx' & E & Hb').
    { intros t Ht. apply (antichain_join_beyond (ag_physical a) F t) in Ht. tauto. }
    rewrite E. eexists _, _. split; [reflexivity|]. rewrite app_nil_r.
    assert (Hl : alive (set_nth (w_agents w) i (Some a')) = alive (l1 ++ Some a' :: l2)) by (rewrite El, Ei, set_nth_at; reflexivity).
    destruct I. constructor; auto; unfold w_upper; cbn [w_box w_agents w_writer]; rewrite ?live_alive; cbn [w_agents]; rewrite ?Hl.
    + split; [apply (box_perm _ _ _ _ _ (Permutation_sym (HP a')) Hb')|]. intros E0. pose proof (HP a') as HPa. rewrite E0 in HPa. apply Permutation_nil in HPa. discriminate.
    + apply (Permutation_Forall HPw) in wi_agents0. inversion wi_agents0 as [|? ? [A1 A2] A3]; subst. apply (Permutation_Forall (Permutation_sym (HP a'))). constructor; auto. split; auto. apply antichain_join_antichain.
  - destruct (w_writer w) as [up|] eqn:Ew; [|exists w, []; rewrite app_nil_r; auto]. cbn [legal] in HL. rewrite Ew in HL. destruct HL as (Pb & Hl & Hs & _).
    destruct (insert_ok w h up b hint I Ew Pb Hl Hs) as (w' & E & I' & _). rewrite E. exists w', [(b, hint)]. auto.
  - destruct (w_writer w) as [at_|] eqn:Ew; [|exists w, []; rewrite app_nil_r; auto]. cbn [legal] in HL. rewrite Ew in HL. destruct HL as [Hac Hle].
    destruct (seal_ok w h at_ up I Ew Hac Hle) as (w' & bs & E & I' & _). exists w', bs. auto.
  - destruct (w_writer w) as [at_|] eqn:Ew; [|exists w, []; rewrite app_nil_r; auto].
    destruct (seal_ok w h at_ [] I Ew) as (w' & bs & E & I' & Hw' & Ha' & _ & Hl'); [constructor|intros t Ht; destruct (beyond_nil t Ht)|]. rewrite E.
    eexists _, bs. split; [reflexivity|].
    assert (Hup : w_upper w' = []). { unfold w_upper. rewrite Hw'. destruct (ac_eqb at_ []) eqn:Ee; auto. destruct at_; [auto|discriminate]. }
    assert (Hne : h ++ map fst bs <> []).
    { pose proof (wi_tiles _ _ I') as HT. intros E0. rewrite E0, Hup in HT. inversion HT as [? ? H0|]; subst. apply (beyond_nil (T:=T) tmin), H0. exists tmin. split; [left; auto|apply tle_refl]. }
    destruct I'. constructor; auto.
    + cbn [w_box live w_agents w_writer]. change (w_upper {| w_box := w_box w'; w_agents := w_agents w'; w_writer := None; w_listeners := _ |}) with (@nil T). rewrite <- Hup. exact wi_box0.
    + rewrite Hup in wi_tiles0. exact wi_tiles0.
    + constructor.
  - destruct (w_writer w) as [up|] eqn:Ew; [|exists w, []; rewrite app_nil_r; auto]. pose proof (wi_box _ _ I) as Hb. destruct (w_box w) as [bx|] eqn:Eb; [|exists w, []; rewrite app_nil_r; auto].
    destruct Hb as [[H1 H2 (n & HS)] Hne]. destruct (Sinv_step ops contents laws _ _ _ _ _ _ HS answer) as (s' & E & HS'). rewrite E. eexists _, _. split; [reflexivity|]. rewrite app_nil_r.
    destruct I. constructor; auto; cbn [w_box]; unfold w_upper in *; cbn [w_writer]; rewrite ?Ew in *; auto.
    split; [|exact Hne]. constructor; auto. eexists; exact HS'.
  - pose proof (wi_box _ _ I) as Hb. destruct (w_box w) as [bx|] eqn:Eb; [|exists w, []; rewrite app_nil_r; auto].
    destruct (agent_at w i) as [a|] eqn:Ea; [|exists w, []; rewrite app_nil_r; auto]. eexists _, _. split; [reflexivity|]. rewrite app_nil_r. destruct I. constructor; auto.
  - destruct (nth_error (w_listeners w) j) as [[[r l]|]|]; try (exists w, []; rewrite app_nil_r; auto; fail).
    eexists _, _. split; [reflexivity|]. rewrite app_nil_r. destruct I. constructor; auto.
  - eexists _, _. split; [reflexivity|]. rewrite app_nil_r. destruct I. constructor; auto.
Qed.
Lemma new_ok e : w_inv (world_new (with_effort e)) [].
Proof.
  destruct (history_runs ops contents laws e [] [] [tmin] [tmin] [tmin] (sh_nil _ _ _)) as (s & E & HS). inversion E; subst s.
  assert (HH : forall t : T, beyond (ma_frontier (ma_update_iter [] (plus_one [tmin]))) t <-> beyond [tmin] t).
  { intros t. rewrite (holds_frontier _ [[tmin]]); [|intros x; reflexivity]. split; [intros (F & [<-|[]] & H); auto|intros H; exists [tmin]; split; [left; auto|auto]]. }
  constructor; auto; cbn [w_box world_new w_agents live flat_map app].
  - split; [|discriminate].
    assert (E0 : ma_frontier (ma_update_iter [] (plus_one [tmin])) = ([tmin] : list T)).
    { apply Permutation_length_1_inv. apply same_future_perm; [apply (ac_from_antichain [tmin])|apply ma_frontier_ac|]. intros t. rewrite HH. tauto. }
    constructor; cbn [bx_logical bx_physical bx_trace box_new with_effort logical physical map ag_logical ag_physical].
    + rewrite E0. intros t. reflexivity.
    + rewrite E0. intros t. reflexivity.
    + eexists. rewrite E0. exact HS.
  - constructor. intros t. reflexivity.
  - apply (ac_from_antichain [tmin]).
  - constructor; [|constructor]. split; apply ma_frontier_ac.
  - discriminate.
Qed.
Lemma run_ok l : forall w h, w_inv w h -> legal_run ops contents laws w l ->
  exists w' bs, w_run ops w l = Some (w', bs) /\ w_inv w' (h ++ map fst bs).
Proof.
  induction l as [|c l IH]; intros w h I HL; cbn [w_run].
  - exists w, []. rewrite app_nil_r. auto.
  - destruct HL as [H1 H2]. destruct (step_ok w h c I H1) as (w1 & bs1 & E1 & I1). rewrite E1. destruct (IH _ _ I1 (H2 _ _ E1)) as (w2 & bs2 & E2 & I2). rewrite E2.
    exists w2, (bs1 ++ bs2). split; auto. rewrite map_app, app_assoc. auto.
Qed.

(** ** Queues *)
Definition attached (w : world) : Prop :=
  Forall (fun o => match o with Some (r, _) => r = match w_writer w with Some _ => true | None => false end | None => True end) (w_listeners w).
Definition received (l : Listener B T) : list (instruction B T) := l_taken l ++ l_queue l.
Definition queue_at (w : world) (j : nat) : option (list (instruction B T)) :=
  match nth_error (w_listeners w) j with Some (Some (_, l)) => Some (received l) | _ => None end.

Lemma attached_map w w' (f : option (bool * Listener B T) -> option (bool * Listener B T)) : attached w ->
  (forall o, match o with Some (r, _) => r = match w_writer w with Some _ => true | None => false end | None => True end ->
     match f o with Some (r, _) => r = match w_writer w' with Some _ => true | None => false end | None => True end) ->
  w_listeners w' = map f (w_listeners w) -> attached w'.
Proof.
  intros HA Hf E. unfold attached. rewrite E. apply Forall_forall. intros o Ho. apply in_map_iff in Ho as (x & <- & Hx). apply Hf. apply (proj1 (Forall_forall _ _) HA x Hx).
Qed.
Lemma announce_app bs bs' : announce ops (bs ++ bs') = announce ops bs ++ announce ops bs'.
Proof. apply flat_map_app. Qed.

Lemma step_queues w h c w' bs : w_inv w h -> legal ops contents laws w c -> attached w -> w_step ops w c = Some (w', bs) ->
  attached w' /\ (forall j q, c <> CDropListener j -> queue_at w j = Some q -> queue_at w' j = Some (q ++ announce ops bs)) /\
  (w_writer w = None -> bs = [] /\ w_writer w' = None) /\ length (w_listeners w) <= length (w_listeners w').
Proof.
  intros I HL HA E.
  assert (Hsame : forall w1, w_listeners w1 = w_listeners w -> w_writer w1 = w_writer w -> bs = [] -> w' = w1 ->
    attached w' /\ (forall j q, c <> CDropListener j -> queue_at w j = Some q -> queue_at w' j = Some (q ++ announce ops bs)) /\ (w_writer w = None -> bs = [] /\ w_writer w' = None) /\ length (w_listeners w) <= length (w_listeners w')).
  { intros w1 E1 E2 -> ->. split; [unfold attached; rewrite E1, E2; exact HA|split; [|split]].
    - intros j q _ Hq. cbn [announce flat_map]. rewrite app_nil_r. unfold queue_at in *. rewrite E1. auto.
    - intros Hn. split; [auto|congruence].
    - rewrite E1. auto. }
  assert (Hpush : forall at_ w1 is b r, w_writer w = Some at_ -> w_writer w1 = r -> (r = None -> b = false) -> (r <> None -> b = true) ->
    w_listeners w1 = map (fun o => match o with Some (true, l) => Some (b, push_back is l) | Some (false, l) => Some (b, l) | None => None end) (w_listeners w) ->
    attached w1 /\ (forall j q, queue_at w j = Some q -> queue_at w1 j = Some (q ++ is)) /\ length (w_listeners w1) = length (w_listeners w)).
  { intros at_ w1 is b r Hw Hr Hb1 Hb2 El. assert (Hb : b = match w_writer w1 with Some _ => true | None => false end). { rewrite Hr. destruct r; [apply Hb2; discriminate|apply Hb1; auto]. }
    split; [|split; [|rewrite El, map_length; auto]].
    - refine (attached_map w w1 _ HA _ El). intros [[[|] l]|] _; auto.
    - intros j q Hq. unfold queue_at in *. rewrite El, nth_error_map. destruct (nth_error (w_listeners w) j) as [[[r0 l]|]|] eqn:Ej; try discriminate. cbn [option_map].
      assert (r0 = true). { apply nth_error_In in Ej. apply (proj1 (Forall_forall _ _) HA) in Ej. rewrite Hw in Ej. auto. } subst r0.
      inversion Hq; subst q. f_equal. unfold received, push_back. cbn [l_taken l_queue]. rewrite app_assoc. auto. }
  destruct c; cbn [w_step] in E.
  - destruct (w_box w); [|inversion E; subst; apply (Hsame w'); auto]. destruct (agent_at w i); [|inversion E; subst; apply (Hsame w'); auto].
    destruct (agent_clone ops t a) as [[bx a']|]; [|discriminate]. inversion E; subst. eapply Hsame; [| | |reflexivity]; reflexivity.
  - destruct (w_box w); [|inversion E; subst; apply (Hsame w'); auto]. destruct (agent_at w i); [|inversion E; subst; apply (Hsame w'); auto].
    destruct (agent_drop ops t a) as [bx|]; [|discriminate]. inversion E; subst. eapply Hsame; [| | |reflexivity]; reflexivity.
  - destruct (w_box w); [|inversion E; subst; apply (Hsame w'); auto]. destruct (agent_at w i); [|inversion E; subst; apply (Hsame w'); auto].
    inversion E; subst. eapply Hsame; [| | |reflexivity]; reflexivity.
  - destruct (w_box w); [|inversion E; subst; apply (Hsame w'); auto]. destruct (agent_at w i); [|inversion E; subst; apply (Hsame w'); auto].
    destruct (agent_set_physical ops t a F) as [[bx a']|]; [|discriminate]. inversion E; subst. eapply Hsame; [| | |reflexivity]; reflexivity.
  - destruct (w_writer w) as [up|] eqn:Ew; [|inversion E; subst; apply (Hsame w'); auto]. cbn [legal] in HL. rewrite Ew in HL. destruct HL as (Pb & Hl & Hs & _).
    destruct (insert_ok w h up b hint I Ew Pb Hl Hs) as (w1 & E1 & _ & Hw1 & _ & El1). rewrite E1 in E. inversion E; subst. clear E.
    destruct (Hpush up w' [IBatch b hint; IFrontier (upper_of b)] true _ eq_refl Hw1) as (P1 & P2 & P3); [discriminate|auto| |].
    { rewrite El1. apply map_ext_in. intros [[[|] l]|] Ho; auto. apply (proj1 (Forall_forall _ _) HA) in Ho. rewrite Ew in Ho. discriminate. }
    split; [auto|split; [intros j q _; apply P2|split; [discriminate|lia]]].
  - destruct (w_writer w) as [at_|] eqn:Ew; [|inversion E; subst; apply (Hsame w'); auto]. cbn [legal] in HL. rewrite Ew in HL. destruct HL as [Hac Hle].
    destruct (seal_ok w h at_ up I Ew Hac Hle) as (w1 & bs1 & E1 & _ & Hw1 & _ & _ & El1). rewrite E1 in E. inversion E; subst. clear E.
    destruct (Hpush at_ w' (announce ops bs) true _ eq_refl Hw1) as (P1 & P2 & P3); [destruct (ac_eqb at_ up); discriminate|auto| |].
    { rewrite El1. apply map_ext_in. intros [[[|] l]|] Ho; auto. apply (proj1 (Forall_forall _ _) HA) in Ho. rewrite Ew in Ho. discriminate. }
    split; [auto|split; [intros j q _; apply P2|split; [discriminate|lia]]].
  - destruct (w_writer w) as [at_|] eqn:Ew; [|inversion E; subst; apply (Hsame w'); auto].
    destruct (seal_ok w h at_ [] I Ew) as (w1 & bs1 & E1 & _ & Hw1 & _ & _ & El1); [constructor|intros t Ht; destruct (beyond_nil t Ht)|]. rewrite E1 in E. inversion E; subst. clear E.
    destruct (Hpush at_ {| w_box := w_box w1; w_agents := w_agents w1; w_writer := None; w_listeners := map (fun o => match o with Some (_, l) => Some (false, l) | None => None end) (w_listeners w1) |}
      (announce ops bs) false None eq_refl eq_refl) as (P1 & P2 & P3); [auto|congruence| |].
    { cbn [w_listeners]. rewrite El1, map_map. apply map_ext. intros [[[|] l]|]; auto. }
    split; [auto|split; [intros j q _; apply P2|split; [discriminate|]]]. rewrite P3. auto.
  - destruct (w_writer w) as [up|] eqn:Ew; [|inversion E; subst; apply (Hsame w'); auto]. destruct (w_box w) as [bx|]; [|inversion E; subst; apply (Hsame w'); auto].
    destruct (spine_exert ops (bx_trace bx) answer) as [tr|]; [|discriminate]. inversion E; subst. eapply Hsame; [| | |reflexivity]; auto.
  - destruct (w_box w) as [bx|]; [|inversion E; subst; apply (Hsame w'); auto]. destruct (agent_at w i); [|inversion E; subst; apply (Hsame w'); auto].
    inversion E; subst. cbn [w_listeners w_writer]. split; [|split; [|split; [auto|rewrite app_length; lia]]].
    + unfold attached. cbn [w_listeners w_writer]. apply Forall_app. split; [exact HA|]. constructor; auto.
    + intros j q _ Hq. cbn [announce flat_map]. rewrite app_nil_r. unfold queue_at in *. cbn [w_listeners]. destruct (nth_error (w_listeners w) j) as [o|] eqn:Ej; [|discriminate].
      rewrite nth_error_app1; [rewrite Ej; auto|]. apply nth_error_Some. congruence.
  - destruct (nth_error (w_listeners w) j) as [[[r l]|]|] eqn:Ej; try (inversion E; subst; apply (Hsame w'); auto; fail).
    inversion E; subst. cbn [w_listeners w_writer]. assert (Hlt : j < length (w_listeners w)) by (apply nth_error_Some; congruence).
    split; [|split; [|split; [auto|rewrite set_nth_length; auto]]].
    + unfold attached. cbn [w_listeners w_writer]. apply Forall_forall. intros o Ho. apply In_nth_error in Ho as (k & Hk). destruct (Nat.eq_dec k j) as [->|Hn].
      * rewrite nth_set_eq in Hk by auto. inversion Hk; subst. apply nth_error_In in Ej. apply (proj1 (Forall_forall _ _) HA) in Ej. auto.
      * rewrite nth_set_neq in Hk by auto. apply nth_error_In in Hk. apply (proj1 (Forall_forall _ _) HA) in Hk. auto.
    + intros k q _ Hq. cbn [announce flat_map]. rewrite app_nil_r. unfold queue_at in *. cbn [w_listeners]. destruct (Nat.eq_dec k j) as [->|Hn].
      * rewrite nth_set_eq by auto. rewrite Ej in Hq. rewrite <- Hq. unfold received. cbn [l_taken l_queue]. rewrite app_nil_r. auto.
      * rewrite nth_set_neq by auto. auto.
  - inversion E; subst. cbn [w_listeners w_writer]. destruct (Nat.ltb_spec j (length (w_listeners w))) as [Hlt|Hge].
    + split; [|split; [|split; [auto|rewrite set_nth_length; auto]]].
      * unfold attached. cbn [w_listeners w_writer]. destruct (Nat.ltb_spec j (length (w_listeners w))); [|lia]. apply Forall_forall. intros o Ho. apply In_nth_error in Ho as (k & Hk). destruct (Nat.eq_dec k j) as [->|Hn].
        -- rewrite nth_set_eq in Hk by auto. inversion Hk; subst. auto.
        -- rewrite nth_set_neq in Hk by auto. apply nth_error_In in Hk. apply (proj1 (Forall_forall _ _) HA) in Hk. auto.
      * intros k q Hk Hq. cbn [announce flat_map]. rewrite app_nil_r. unfold queue_at in *. cbn [w_listeners]. destruct (Nat.ltb_spec j (length (w_listeners w))); [|lia].
        rewrite nth_set_neq; auto.
    + split; [|split; [|split; [auto|auto]]].
      * unfold attached. cbn [w_listeners w_writer]. destruct (Nat.ltb_spec j (length (w_listeners w))); [lia|]. exact HA.
      * intros k q _ Hq. cbn [announce flat_map]. rewrite app_nil_r. unfold queue_at in *. cbn [w_listeners]. destruct (Nat.ltb_spec j (length (w_listeners w))); [lia|]. auto.
Qed.
Lemma new_attached e : attached (world_new (with_effort (B:=B) (M:=M) (T:=T) e)).
Proof. constructor. Qed.
Lemma run_queues l : forall w h w' bs, w_inv w h -> legal_run ops contents laws w l -> attached w -> w_run ops w l = Some (w', bs) ->
  attached w' /\ (forall j q, ~ In (CDropListener j) l -> queue_at w j = Some q -> queue_at w' j = Some (q ++ announce ops bs)).
Proof.
  induction l as [|c l IH]; intros w h w' bs I HL HA E; cbn [w_run] in E.
  - inversion E; subst. split; auto. intros j q _ Hq. cbn [announce flat_map]. rewrite app_nil_r. auto.
  - destruct HL as [H1 H2]. destruct (step_ok w h c I H1) as (w1 & bs1 & E1 & I1). rewrite E1 in E. destruct (step_queues w h c w1 bs1 I H1 HA E1) as (A1 & Q1 & _).
    destruct (w_run ops w1 l) as [[w2 bs2]|] eqn:E2; [|discriminate]. inversion E; subst. clear E. destruct (IH _ _ _ _ I1 (H2 _ _ E1) A1 E2) as (A2 & Q2).
    split; auto. intros j q Hn Hq. rewrite announce_app, app_assoc. apply Q2; [intros Hi; apply Hn; right; auto|]. apply Q1; [intros Hc; apply Hn; left; auto|auto].
Qed.

(** ** Reading a queue *)
Lemma listener_start_ok s h up L P n : Sinv s h up L P n ->
  exists up1, same_future up1 up /\ antichain up1 /\
  listener_start ops s = map (fun b => IBatch b (Some tmin)) (map_batches s) ++ match h with [] => [] | _ => [IFrontier up1] end.
Proof.
  intros HS. unfold listener_start. pose proof (Sinv_cov _ _ _ _ _ _ _ _ _ HS) as HC. pose proof (cov_tiles _ _ _ _ _ _ HC _ _ (si_tiles _ _ _ _ _ _ _ _ _ HS)) as HT.
  assert (HE : h = [] <-> map_batches s = []).
  { destruct HC as (gs & <- & HF). split; intros H0.
    - destruct HF as [|b g bs gs Hc HF]; auto. destruct Hc as [_ _ (x & r & -> & _) _ _ _]. discriminate.
    - rewrite H0 in HF. inversion HF. auto. }
  pose proof (cov_spans _ _ _ _ _ _ HC) as HSp. destruct (map_batches s) as [|b bs] eqn:Em.
  { exists up. rewrite (proj2 HE eq_refl). split; [intros t; reflexivity|]. split; [apply (si_upper_ac _ _ _ _ _ _ _ _ _ HS)|auto]. }
  destruct h as [|x h]; [pose proof (proj1 HE eq_refl); discriminate|].
  clear - HT HSp. inversion HT as [|? ? ? ? _ HT']; subst. inversion HSp as [|? ? Sb HSp']; subst. clear HT HSp.
  assert (HX : forall l lo, tiles ops lo l up -> antichain lo -> Forall (spans ops) l -> exists up1, same_future up1 up /\ antichain up1 /\ fold_left (fun (_ : option (list T)) b => Some (d_upper (b_desc ops b))) l (Some lo) = Some up1).
  { induction l as [|y l IH]; intros lo Hl Al Hs; inversion Hl; inversion Hs; subst; cbn [fold_left]; eauto. apply IH; auto. match goal with H : spans ops y |- _ => apply H end. }
  destruct (HX bs _ HT' (proj1 (proj2 Sb)) HSp') as (up1 & H1 & H2 & H3). exists up1. split; [auto|]. split; [auto|]. f_equal.
  change (fold_left (fun (_ : option (list T)) b0 => Some (d_upper (b_desc ops b0))) (b :: bs) None) with (fold_left (fun (_ : option (list T)) b0 => Some (d_upper (b_desc ops b0))) bs (Some (upper_of b))). rewrite H3. auto.
Qed.
(** what is known of inserted batches with hints *)
Definition hinted (x : B * option T) : Prop :=
  proper (fst x) /\ match snd x with Some h => beyond (lower_of (fst x)) h /\ Forall (fun u => tle h (snd (fst u)) = true) (contents (fst x)) | None => contents (fst x) = [] end.
Lemma step_hinted w h c w' bs : w_inv w h -> legal ops contents laws w c -> w_step ops w c = Some (w', bs) -> Forall hinted bs.
Proof.
  intros I HL E. destruct (step_ok w h c I HL) as (w1 & bs1 & E1 & I1). rewrite E in E1. inversion E1; subst w1 bs1. clear E1.
  pose proof (wi_proper _ _ I1) as HP. apply Forall_app in HP as [_ HP].
  assert (Hnil : forall w0, Some (w0, []) = Some (w', bs) -> Forall hinted bs) by (intros w0 H; inversion H; constructor).
  assert (Hseal : forall at_ up, w_writer w = Some at_ -> antichain up -> (forall t, beyond up t -> beyond at_ t) -> forall w1, writer_seal ops w at_ up = Some (w1, bs) -> Forall hinted bs).
  { intros at_ up Ew Hac Hle w1 Es. destruct (seal_ok w h at_ up I Ew Hac Hle) as (w2 & bs2 & E2 & I2 & _ & _ & Hx & _). rewrite Es in E2. inversion E2; subst w2 bs2.
    apply Forall_forall. intros x Hi. destruct (Hx x Hi) as [H1 H2]. unfold hinted. rewrite H2. split; [|auto]. apply (proj1 (Forall_forall _ _) HP). apply in_map. auto. }
  destruct c; cbn [w_step] in E.
  - destruct (w_box w); [|apply (Hnil _ E)]. destruct (agent_at w i); [|apply (Hnil _ E)]. destruct (agent_clone ops t a) as [[bx a']|]; [|discriminate]. apply (Hnil _ E).
  - destruct (w_box w); [|apply (Hnil _ E)]. destruct (agent_at w i); [|apply (Hnil _ E)]. destruct (agent_drop ops t a) as [bx|]; [|discriminate]. apply (Hnil _ E).
  - destruct (w_box w); [|apply (Hnil _ E)]. destruct (agent_at w i); [|apply (Hnil _ E)]. apply (Hnil _ E).
  - destruct (w_box w); [|apply (Hnil _ E)]. destruct (agent_at w i); [|apply (Hnil _ E)]. destruct (agent_set_physical ops t a F) as [[bx a']|]; [|discriminate]. apply (Hnil _ E).
  - destruct (w_writer w) as [up|] eqn:Ew; [|apply (Hnil _ E)]. destruct (writer_insert ops w up b hint); [|discriminate]. inversion E; subst. cbn [legal] in HL. rewrite Ew in HL. destruct HL as (Pb & _ & _ & Hh). constructor; [|constructor]. split; auto.
  - destruct (w_writer w) as [at_|] eqn:Ew; [|apply (Hnil _ E)]. cbn [legal] in HL. rewrite Ew in HL. destruct HL as [Hac Hle]. eauto.
  - destruct (w_writer w) as [at_|] eqn:Ew; [|apply (Hnil _ E)]. destruct (writer_seal ops w at_ []) as [[w1 bs1]|] eqn:Es; [|discriminate]. inversion E; subst. apply (Hseal at_ [] eq_refl) with w1; [constructor|intros t Ht; destruct (beyond_nil t Ht)|auto].
  - destruct (w_writer w); [|apply (Hnil _ E)]. destruct (w_box w) as [bx|]; [|apply (Hnil _ E)]. destruct (spine_exert ops (bx_trace bx) answer); [|discriminate]. apply (Hnil _ E).
  - destruct (w_box w); [|apply (Hnil _ E)]. destruct (agent_at w i); apply (Hnil _ E).
  - destruct (nth_error (w_listeners w) j) as [[[r l]|]|]; apply (Hnil _ E).
  - apply (Hnil _ E).
Qed.
Lemma run_hinted l : forall w h w' bs, w_inv w h -> legal_run ops contents laws w l -> w_run ops w l = Some (w', bs) -> Forall hinted bs.
Proof.
  induction l as [|c l IH]; intros w h w' bs I HL E; cbn [w_run] in E; [inversion E; constructor|]. destruct HL as [H1 H2]. destruct (step_ok w h c I H1) as (w1 & bs1 & E1 & I1). rewrite E1 in E.
  destruct (w_run ops w1 l) as [[w2 bs2]|] eqn:E2; [|discriminate]. inversion E; subst. apply Forall_app. split; [apply (step_hinted _ _ _ _ _ I H1 E1)|apply (IH _ _ _ _ I1 (H2 _ _ E1) E2)].
Qed.

(** importing: messages sent and capabilities kept *)
Definition sent_by (bs : list B) : list B := filter (nonempty ops) bs.
Lemma import_batches bs : forall is, import_core ops [tmin] (map (fun b => IBatch b (Some tmin)) bs ++ is) =
  match import_core ops [tmin] is with Some (caps, out) => Some (caps, map (fun b => (tmin, b)) (sent_by bs) ++ out) | None => None end.
Proof.
  induction bs as [|b bs IH]; intros is; cbn [map app import_core sent_by filter]; [destruct (import_core ops [tmin] is) as [[]|]; auto|].
  fold (sent_by bs). destruct (nonempty ops b); [|apply IH]. unfold cs_delayed. assert (Hm : ac_less_equal [tmin] (tmin : T) = true) by (apply ac_less_equal_spec; exists tmin; split; [left; auto|apply tle_refl]).
  rewrite Hm, IH. destruct (import_core ops [tmin] is) as [[caps out]|]; auto.
Qed.
Lemma hinted_nonempty x : hinted x -> nonempty ops (fst x) = true -> exists h, snd x = Some h /\ beyond (lower_of (fst x)) h /\ Forall (fun u => tle h (snd (fst u)) = true) (contents (fst x)).
Proof.
  intros [Pb Hh] Hn. destruct (snd x) as [h|]; [exists h; split; [auto|apply Hh]|]. exfalso. unfold nonempty in Hn. rewrite (bl_len _ _ laws _ (pr_ok _ _ _ _ Pb)), Hh in Hn. discriminate.
Qed.
Lemma import_announce bs : forall caps lo up, Forall hinted bs -> tiles ops lo (map fst bs) up -> same_future caps lo ->
  exists caps' out, import_core ops caps (announce ops bs) = Some (caps', out) /\ same_future caps' up /\
    map snd out = sent_by (map fst bs) /\
    Forall (fun m => beyond lo (fst m) /\ Forall (fun u => tle (fst m) (snd (fst u)) = true) (contents (snd m))) out.
Proof.
  induction bs as [|[b hint] bs IH]; intros caps lo up HF HT HS; cbn [announce flat_map app import_core fst snd map].
  - exists caps, []. cbn. inversion HT as [? ? H0|]; subst. split; [auto|]. split; [intros t; rewrite (HS t); apply H0|auto].
  - inversion HF as [|? ? Hx HF']; subst. inversion HT as [|? ? ? ? Hl HT']; subst. fold (announce ops bs). cbn [fst snd map] in *.
    assert (Hd : cs_downgrade caps (upper_of b) = Some (upper_of b)).
    { unfold cs_downgrade. assert (Hall : forallb (ac_less_equal caps) (upper_of b) = true); [|rewrite Hall; auto]. apply forallb_forall. intros t Ht. apply ac_less_equal_spec. apply HS, Hl.
      apply (pr_le _ _ _ _ (proj1 Hx)). exists t. split; [auto|apply tle_refl]. }
    destruct (IH (upper_of b) (upper_of b) up HF' HT') as (caps' & out & E & Ec & Eo & Ho); [intros t; reflexivity|].
    assert (Hlift : Forall (fun m => beyond lo (fst m) /\ Forall (fun u => tle (fst m) (snd (fst u)) = true) (contents (snd m))) out).
    { eapply Forall_impl; [|exact Ho]. cbn beta. intros m [H1 H2]. split; auto. apply Hl. apply (pr_le _ _ _ _ (proj1 Hx)). auto. }
    unfold sent_by. cbn [filter]. fold (sent_by (map fst bs)). destruct (nonempty ops b) eqn:En.
    + destruct (hinted_nonempty _ Hx En) as (t & Eh & Hb & Hu). cbn [fst snd] in *. rewrite Eh. cbn [import_core]. unfold cs_delayed.
      assert (Hc : ac_less_equal caps t = true) by (apply ac_less_equal_spec; apply HS, Hl; auto). rewrite Hc, Hd, E. exists caps', ((t, b) :: out). split; [auto|split; [auto|split; [cbn [map snd]; rewrite Eo; auto|]]].
      constructor; auto. cbn [fst snd]. split; [apply Hl; auto|auto].
    + exists caps', out. split; [|auto]. destruct hint as [t|]; cbn [import_core]; rewrite Hd, E; auto.
Qed.
(** the two together *)
Lemma import_all ms h up bs up' : tiles ops [tmin] ms up -> Forall (fun b => nonempty ops b = false -> contents b = []) ms ->
  Forall hinted bs -> tiles ops up (map fst bs) up' -> (h = [] <-> ms = []) -> antichain up -> 
  exists caps out, import_core ops [tmin] ((map (fun b => IBatch b (Some tmin)) ms ++ match h : list B with [] => [] | _ => [IFrontier up] end) ++ announce ops bs) = Some (caps, out) /\ same_future caps up' /\
    map snd out = sent_by (ms ++ map fst bs) /\
    Forall (fun m => Forall (fun u => tle (fst m) (snd (fst u)) = true) (contents (snd m))) out.
Proof.
  intros HT Hne HF HT' Hh Hac. rewrite <- app_assoc, import_batches.
  assert (Hdone : exists caps out, import_core ops [tmin] (match h with [] => [] | _ => [IFrontier up] end ++ announce ops bs) = Some (caps, out) /\ same_future caps up' /\ map snd out = sent_by (map fst bs) /\
    Forall (fun m => Forall (fun u => tle (fst m) (snd (fst u)) = true) (contents (snd m))) out).
  { assert (Hmin : forall t : T, beyond [tmin] t) by (intros t; exists tmin; split; [left; auto|apply tmin_le]).
    destruct h as [|x h]; cbn [app].
    - rewrite (proj1 Hh eq_refl) in HT. inversion HT as [? ? H0|]; subst. destruct (import_announce bs [tmin] up up' HF HT') as (caps & out & E & Ec & Eo & Ho); [exact H0|].
      exists caps, out. split; [auto|split; [auto|split; [auto|]]]. eapply Forall_impl; [|exact Ho]. cbn beta. tauto.
    - cbn [import_core]. assert (Hd : cs_downgrade [tmin] up = Some up). { unfold cs_downgrade. assert (Hall : forallb (ac_less_equal [tmin]) up = true); [|rewrite Hall; auto]. apply forallb_forall. intros t _. apply ac_less_equal_spec. auto. }
      rewrite Hd. destruct (import_announce bs up up up' HF HT') as (caps & out & E & Ec & Eo & Ho); [intros t; reflexivity|].
      exists caps, out. split; [auto|split; [auto|split; [auto|]]]. eapply Forall_impl; [|exact Ho]. cbn beta. tauto. }
  destruct Hdone as (caps & out & E & Ec & Eo & Ho). rewrite E. exists caps, (map (fun b => (tmin, b)) (sent_by ms) ++ out). split; [auto|split; [auto|split]].
  - rewrite map_app, map_map, Eo. cbn [snd]. rewrite map_id. unfold sent_by. rewrite filter_app. auto.
  - apply Forall_app. split; auto. apply Forall_forall. intros m Hm. apply in_map_iff in Hm as (b & <- & _). cbn [fst snd]. apply Forall_forall. intros u _. apply tmin_le.
Qed.

Lemma import_app is1 : forall caps is2, import_core ops caps (is1 ++ is2) =
  match import_core ops caps is1 with
  | Some (caps1, out1) => match import_core ops caps1 is2 with Some (caps2, out2) => Some (caps2, out1 ++ out2) | None => None end
  | None => None
  end.
Proof.
  induction is1 as [|[F|b hint] is1 IH]; intros caps is2; cbn [app import_core].
  - destruct (import_core ops caps is2) as [[]|]; auto.
  - destruct (cs_downgrade caps F); auto.
  - destruct hint as [t|]; auto. destruct (nonempty ops b); auto. destruct (cs_delayed caps t); auto. rewrite IH. destruct (import_core ops caps is1) as [[caps1 out1]|]; auto.
    destruct (import_core ops caps1 is2) as [[caps2 out2]|]; auto.
Qed.

(** ** Importing up to a frontier *)
Lemma frontier_idle until is : import_frontier_core ops until [] is = Some ([], []).
Proof. induction is as [|i is IH]; auto. Qed.
Definition out_of_range (until : list T) (m : T * B) : Prop := Forall (fun u => beyond until (snd (fst u))) (contents (snd m)).
Lemma tiles_le bs : forall lo up, Forall hinted bs -> tiles ops lo (map fst bs) up -> forall t, beyond up t -> beyond lo t.
Proof.
  induction bs as [|x bs IH]; intros lo up HF HT t Ht; inversion HT as [? ? H0|]; subst; [apply H0; auto|]. inversion HF; subst. match goal with H : same_future lo _ |- _ => apply H end.
  match goal with H : hinted x |- _ => apply (pr_le _ _ _ _ (proj1 H)) end. eapply IH; eauto.
Qed.
Lemma frontier_announce until bs : forall caps lo up, Forall hinted bs -> tiles ops lo (map fst bs) up -> same_future caps lo ->
  exists caps1 caps2 o1 o2, import_frontier_core ops until caps (announce ops bs) = Some (caps1, o1) /\
    import_core ops caps (announce ops bs) = Some (caps2, o1 ++ o2) /\ Forall (out_of_range until) o2 /\
    (o2 = [] /\ caps1 = caps2 \/ caps1 = [] /\ forall t, beyond up t -> beyond until t).
Proof.
  induction bs as [|[b hint] bs IH]; intros caps lo up HF HT HS.
  - cbn [announce flat_map]. exists caps, caps, [], []. cbn. auto 6.
  - destruct (import_announce ((b, hint) :: bs) caps lo up HF HT HS) as (call & oall & Eall & _ & _ & Hall).
    inversion HF as [|? ? Hx HF']; subst. inversion HT as [|? ? ? ? Hl HT']; subst. cbn [fst snd map] in *.
    assert (Hcaps : match caps with [] => true | _ => false end = false).
    { destruct caps as [|c caps]; auto. exfalso. apply (pr_nonempty _ _ _ _ (proj1 Hx)). cbn [fst]. destruct (lower_of b) as [|x lb] eqn:Elb; auto. exfalso. apply (beyond_nil (T:=T) x). apply HS, Hl. exists x. split; [left; auto|apply tle_refl]. }
    assert (Hd : cs_downgrade caps (upper_of b) = Some (upper_of b)).
    { unfold cs_downgrade. assert (Hx2 : forallb (ac_less_equal caps) (upper_of b) = true); [|rewrite Hx2; auto]. apply forallb_forall. intros t Ht. apply ac_less_equal_spec. apply HS, Hl.
      apply (pr_le _ _ _ _ (proj1 Hx)). exists t. split; [auto|apply tle_refl]. }
    (* the frontier and what follows *)
    assert (Hrest : exists caps1 caps2 o1 o2, import_frontier_core ops until caps (IFrontier (upper_of b) :: announce ops bs) = Some (caps1, o1) /\
      import_core ops caps (IFrontier (upper_of b) :: announce ops bs) = Some (caps2, o1 ++ o2) /\ Forall (out_of_range until) o2 /\ (o2 = [] /\ caps1 = caps2 \/ caps1 = [] /\ forall t, beyond up t -> beyond until t)).
    { cbn [import_frontier_core import_core]. rewrite Hcaps, Hd. destruct (ac_le until (upper_of b)) eqn:Eu.
      - unfold cs_downgrade. cbn [forallb]. rewrite frontier_idle. destruct (import_announce bs (upper_of b) (upper_of b) up HF' HT') as (cout & out & E & _ & _ & Ho); [intros t; reflexivity|].
        rewrite ac_le_spec in Eu. rewrite E. eexists _, _, [], out. split; [reflexivity|split; [reflexivity|split]].
        + eapply Forall_impl; [|exact Ho]. cbn beta. intros m [M1 M2]. eapply Forall_impl; [|exact M2]. cbn beta. intros u Hu. eapply beyond_mono; [exact Hu|apply Eu, M1].
        + right. split; auto. intros t Ht. apply Eu. eapply tiles_le; eauto.
      - apply (IH _ _ _ HF' HT'). intros t. reflexivity. }
    destruct Hrest as (caps1 & caps2 & o1 & o2 & R1 & R2 & R3 & R4). cbn [announce flat_map app]. fold (announce ops bs). cbn [fst snd].
    destruct (nonempty ops b) eqn:En.
    + destruct (hinted_nonempty _ Hx En) as (t & Eh & Hb & Hu). cbn [fst snd] in *. subst hint.
      assert (Hc : cs_delayed caps t = Some t). { unfold cs_delayed. assert (Hc : ac_less_equal caps t = true) by (apply ac_less_equal_spec; apply HS, Hl; auto). rewrite Hc. auto. }
      exists caps1, caps2, ((t, b) :: o1), o2. split; [|split; [|auto]].
      * change (import_frontier_core ops until caps (IBatch b (Some t) :: IFrontier (upper_of b) :: announce ops bs)) with
          (if match caps with [] => true | _ => false end then import_frontier_core ops until caps (IFrontier (upper_of b) :: announce ops bs)
           else if nonempty ops b then match cs_delayed caps t with Some delayed => match import_frontier_core ops until caps (IFrontier (upper_of b) :: announce ops bs) with Some (c, out) => Some (c, (delayed, b) :: out) | None => None end | None => None end else import_frontier_core ops until caps (IFrontier (upper_of b) :: announce ops bs)).
        rewrite Hcaps, En, Hc, R1. auto.
      * change (import_core ops caps (IBatch b (Some t) :: IFrontier (upper_of b) :: announce ops bs)) with
          (if nonempty ops b then match cs_delayed caps t with Some delayed => match import_core ops caps (IFrontier (upper_of b) :: announce ops bs) with Some (c, out) => Some (c, (delayed, b) :: out) | None => None end | None => None end else import_core ops caps (IFrontier (upper_of b) :: announce ops bs)).
        rewrite En, Hc, R2. auto.
    + exists caps1, caps2, o1, o2. split; [|split; [|auto]].
      * change (import_frontier_core ops until caps (IBatch b hint :: IFrontier (upper_of b) :: announce ops bs)) with
          (if match caps with [] => true | _ => false end then import_frontier_core ops until caps (IFrontier (upper_of b) :: announce ops bs)
           else match hint with Some t => if nonempty ops b then match cs_delayed caps t with Some delayed => match import_frontier_core ops until caps (IFrontier (upper_of b) :: announce ops bs) with Some (c, out) => Some (c, (delayed, b) :: out) | None => None end | None => None end else import_frontier_core ops until caps (IFrontier (upper_of b) :: announce ops bs) | None => import_frontier_core ops until caps (IFrontier (upper_of b) :: announce ops bs) end).
        rewrite Hcaps, En. destruct hint; auto.
      * change (import_core ops caps (IBatch b hint :: IFrontier (upper_of b) :: announce ops bs)) with
          (match hint with Some t => if nonempty ops b then match cs_delayed caps t with Some delayed => match import_core ops caps (IFrontier (upper_of b) :: announce ops bs) with Some (c, out) => Some (c, (delayed, b) :: out) | None => None end | None => None end else import_core ops caps (IFrontier (upper_of b) :: announce ops bs) | None => import_core ops caps (IFrontier (upper_of b) :: announce ops bs) end).
        rewrite En. destruct hint; auto.
Qed.
Lemma frontier_batches until bs : forall is, import_frontier_core ops until [tmin] (map (fun b => IBatch b (Some tmin)) bs ++ is) =
  match import_frontier_core ops until [tmin] is with Some (caps, out) => Some (caps, map (fun b => (tmin, b)) (sent_by bs) ++ out) | None => None end.
Proof.
  induction bs as [|b bs IH]; intros is; cbn [map app import_frontier_core sent_by filter]; [destruct (import_frontier_core ops until [tmin] is) as [[]|]; auto|].
  fold (sent_by bs). destruct (nonempty ops b); [|apply IH]. unfold cs_delayed. assert (Hm : ac_less_equal [tmin] (tmin : T) = true) by (apply ac_less_equal_spec; exists tmin; split; [left; auto|apply tle_refl]).
  rewrite Hm, IH. destruct (import_frontier_core ops until [tmin] is) as [[caps out]|]; auto.
Qed.
Lemma frontier_all until ms h up bs up' : tiles ops [tmin] ms up -> 
  Forall hinted bs -> tiles ops up (map fst bs) up' -> (h = [] <-> ms = []) -> 
  let is := (map (fun b => IBatch b (Some tmin)) ms ++ match h : list B with [] => [] | _ => [IFrontier up] end) ++ announce ops bs in
  exists caps1 caps2 o1 o2, import_frontier_core ops until [tmin] is = Some (caps1, o1) /\
    import_core ops [tmin] is = Some (caps2, o1 ++ o2) /\ Forall (out_of_range until) o2 /\
    (o2 = [] /\ caps1 = caps2 \/ caps1 = [] /\ forall t, beyond up' t -> beyond until t).
Proof.
  intros HT HF HT' Hh. cbv zeta. rewrite <- app_assoc, frontier_batches, import_batches.
  assert (Hdone : exists caps1 caps2 o1 o2, import_frontier_core ops until [tmin] (match h with [] => [] | _ => [IFrontier up] end ++ announce ops bs) = Some (caps1, o1) /\
    import_core ops [tmin] (match h with [] => [] | _ => [IFrontier up] end ++ announce ops bs) = Some (caps2, o1 ++ o2) /\ Forall (out_of_range until) o2 /\
    (o2 = [] /\ caps1 = caps2 \/ caps1 = [] /\ forall t, beyond up' t -> beyond until t)).
  { destruct h as [|x h]; cbn [app].
    - rewrite (proj1 Hh eq_refl) in HT. inversion HT as [? ? H0|]; subst. apply (frontier_announce until bs _ _ _ HF HT'). exact H0.
    - cbn [import_core import_frontier_core]. assert (Hd : cs_downgrade [tmin] up = Some up).
      { unfold cs_downgrade. assert (Hall : forallb (ac_less_equal [tmin]) up = true); [|rewrite Hall; auto]. apply forallb_forall. intros t _. apply ac_less_equal_spec. exists tmin. split; [left; auto|apply tmin_le]. }
      rewrite Hd. destruct (ac_le until up) eqn:Eu; [|apply (frontier_announce until bs _ _ _ HF HT'); intros t; reflexivity].
      unfold cs_downgrade. cbn [forallb]. rewrite frontier_idle. destruct (import_announce bs up up up' HF HT') as (cout & out & E & _ & _ & Ho); [intros t; reflexivity|].
      rewrite ac_le_spec in Eu. rewrite E. eexists _, _, [], out. split; [reflexivity|split; [reflexivity|split]].
      + eapply Forall_impl; [|exact Ho]. cbn beta. intros m [M1 M2]. eapply Forall_impl; [|exact M2]. cbn beta. intros u Hu. eapply beyond_mono; [exact Hu|apply Eu, M1].
      + right. split; auto. intros t Ht. apply Eu. eapply tiles_le; eauto. }
  destruct Hdone as (caps1 & caps2 & o1 & o2 & R1 & R2 & R3 & R4). rewrite R1, R2. exists caps1, caps2, (map (fun b => (tmin, b)) (sent_by ms) ++ o1), o2. rewrite app_assoc. auto.
Qed.

(** ** Handles *)
Lemma agent_live (w : world) i a : agent_at w i = Some a -> In a (live w).
Proof. intros H. destruct (live_split w i a H) as (l1 & l2 & E & _). rewrite live_alive, E, alive_app. apply in_or_app. right. left. auto. Qed.
Lemma agent_at_set (w w' : world) i j o : i < length (w_agents w) -> w_agents w' = set_nth (w_agents w) i o -> agent_at w' j = if j =? i then o else agent_at w j.
Proof.
  intros Hl E. unfold agent_at. rewrite E. destruct (Nat.eqb_spec j i) as [->|Hn]; [rewrite nth_set_eq by auto; destruct o; auto|rewrite nth_set_neq; auto].
Qed.
Lemma agent_at_lt (w : world) i a : agent_at w i = Some a -> i < length (w_agents w).
Proof. unfold agent_at. intros H. apply nth_error_Some. destruct (nth_error (w_agents w) i); congruence. Qed.
Lemma step_agents w h c w' bs i a : w_inv w h -> legal ops contents laws w c -> w_step ops w c = Some (w', bs) -> agent_at w i = Some a ->
  (c = CDrop i -> agent_at w' i = None) /\
  (c <> CDrop i -> exists a', agent_at w' i = Some a' /\
     (forall t, beyond (ag_logical a') t <-> beyond (ag_logical a) t /\ forall F, c = CSetLogical i F -> beyond F t) /\
     (forall t, beyond (ag_physical a') t <-> beyond (ag_physical a) t /\ forall F, c = CSetPhysical i F -> beyond F t)).
Proof.
  intros I HL E Ha. pose proof (agent_at_lt _ _ _ Ha) as Hlt.
  assert (Hb : exists bx, w_box w = Some bx). { destruct (w_box w) eqn:Eb; eauto. exfalso. pose proof (wi_box _ _ I) as H. rewrite Eb in H. apply agent_live in Ha. rewrite H in Ha. destruct Ha. }
  destruct Hb as (bx & Hb).
  assert (Hkeep : agent_at w' i = Some a -> (forall F, c <> CSetLogical i F) -> (forall F, c <> CSetPhysical i F) ->
    exists a', agent_at w' i = Some a' /\ (forall t, beyond (ag_logical a') t <-> beyond (ag_logical a) t /\ forall F, c = CSetLogical i F -> beyond F t) /\
     (forall t, beyond (ag_physical a') t <-> beyond (ag_physical a) t /\ forall F, c = CSetPhysical i F -> beyond F t)).
  { intros Hk H1 H2. exists a. split; [auto|split; intros t; (split; [intros H; split; [auto|]|tauto])]; intros F HF; exfalso; [apply (H1 F HF)|apply (H2 F HF)]. }
  assert (Hsame : w_agents w' = w_agents w -> agent_at w' i = Some a) by (intros Ee; unfold agent_at in *; rewrite Ee; auto).
  destruct c as [j|j|j F|j F|b hint|up| |answer|j|j|j]; (split; [intros Hc; try discriminate Hc|intros Hc]); cbn [w_step] in E; rewrite ?Hb in E.
  - apply Hkeep; try discriminate. destruct (agent_at w j) as [a0|] eqn:Ej; [|inversion E; subst; auto]. destruct (agent_clone ops bx a0) as [[bx' a'']|]; [|discriminate]. inversion E; subst.
    unfold agent_at in *. cbn [w_agents]. rewrite nth_error_app1; auto.
  - inversion Hc; subst j. rewrite Ha in E. destruct (agent_drop ops bx a) as [bx'|]; [|discriminate]. inversion E; subst.
    rewrite (agent_at_set w _ i i None Hlt) by reflexivity. rewrite Nat.eqb_refl. auto.
  - apply Hkeep; try discriminate. destruct (agent_at w j) as [a0|] eqn:Ej; [|inversion E; subst; auto]. destruct (agent_drop ops bx a0) as [bx'|]; [|discriminate]. inversion E; subst.
    rewrite (agent_at_set w _ j i None (agent_at_lt _ _ _ Ej)) by reflexivity. destruct (Nat.eqb_spec i j); [congruence|auto].
  - destruct (agent_at w j) as [a0|] eqn:Ej; [|inversion E; subst; destruct (Nat.eq_dec i j); [congruence|apply Hkeep; [auto|congruence|discriminate]]].
    unfold agent_set_logical in E. inversion E; subst. clear E.
    pose proof (agent_at_set w {| w_box := Some (adjust_logical bx (ag_logical a0) (antichain_join (ag_logical a0) F)); w_agents := set_nth (w_agents w) j (Some {| ag_logical := antichain_join (ag_logical a0) F; ag_physical := ag_physical a0 |});
       w_writer := w_writer w; w_listeners := w_listeners w |} j i (Some {| ag_logical := antichain_join (ag_logical a0) F; ag_physical := ag_physical a0 |}) (agent_at_lt _ _ _ Ej) eq_refl) as HX.
    destruct (Nat.eqb_spec i j) as [->|Hn]; [|apply Hkeep; [rewrite HX; auto|congruence|discriminate]].
    assert (a0 = a) by congruence. subst a0. eexists. split; [exact HX|]. cbn [ag_logical ag_physical]. split; intros t.
    + rewrite antichain_join_beyond. split; [intros [H1 H2]; split; [auto|intros F0 HF0; inversion HF0; subst; auto]|intros [H1 H2]; split; auto].
    + split; [intros H; split; [auto|discriminate]|tauto].
  - destruct (agent_at w j) as [a0|] eqn:Ej; [|inversion E; subst; destruct (Nat.eq_dec i j); [congruence|apply Hkeep; [auto|discriminate|congruence]]].
    unfold agent_set_physical in E. destruct (adjust_physical ops bx (ag_physical a0) (antichain_join (ag_physical a0) F)) as [bx'|]; [|discriminate]. inversion E; subst. clear E.
    pose proof (agent_at_set w {| w_box := Some bx'; w_agents := set_nth (w_agents w) j (Some {| ag_logical := ag_logical a0; ag_physical := antichain_join (ag_physical a0) F |});
       w_writer := w_writer w; w_listeners := w_listeners w |} j i (Some {| ag_logical := ag_logical a0; ag_physical := antichain_join (ag_physical a0) F |}) (agent_at_lt _ _ _ Ej) eq_refl) as HX.
    destruct (Nat.eqb_spec i j) as [->|Hn]; [|apply Hkeep; [rewrite HX; auto|discriminate|congruence]].
    assert (a0 = a) by congruence. subst a0. eexists. split; [exact HX|]. cbn [ag_logical ag_physical]. split; intros t.
    + split; [intros H; split; [auto|discriminate]|tauto].
    + rewrite antichain_join_beyond. split; [intros [H1 H2]; split; [auto|intros F0 HF0; inversion HF0; subst; auto]|intros [H1 H2]; split; auto].
  - apply Hkeep; try discriminate. apply Hsame. destruct (w_writer w) as [up|] eqn:Ew; [|inversion E; subst; auto]. cbn [legal] in HL. rewrite Ew in HL. destruct HL as (Pb & Hl & Hs & _).
    destruct (insert_ok w h up b hint I Ew Pb Hl Hs) as (w1 & E1 & _ & _ & Ea1 & _). rewrite E1 in E. inversion E; subst. auto.
  - apply Hkeep; try discriminate. apply Hsame. destruct (w_writer w) as [at_|] eqn:Ew; [|inversion E; subst; auto]. cbn [legal] in HL. rewrite Ew in HL. destruct HL as [Hac Hle].
    destruct (seal_ok w h at_ up I Ew Hac Hle) as (w1 & bs1 & E1 & _ & _ & Ea1 & _). rewrite E1 in E. inversion E; subst. auto.
  - apply Hkeep; try discriminate. apply Hsame. destruct (w_writer w) as [at_|] eqn:Ew; [|inversion E; subst; auto].
    destruct (seal_ok w h at_ [] I Ew) as (w1 & bs1 & E1 & _ & _ & Ea1 & _); [constructor|intros t Ht; destruct (beyond_nil t Ht)|]. rewrite E1 in E. inversion E; subst. auto.
  - apply Hkeep; try discriminate. apply Hsame. destruct (w_writer w); [|inversion E; subst; auto]. destruct (spine_exert ops (bx_trace bx) answer); [|discriminate]. inversion E; subst. auto.
  - apply Hkeep; try discriminate. apply Hsame. destruct (agent_at w j); inversion E; subst; auto.
  - apply Hkeep; try discriminate. apply Hsame. destruct (nth_error (w_listeners w) j) as [[[r l]|]|]; inversion E; subst; auto.
  - apply Hkeep; try discriminate. apply Hsame. inversion E; subst; auto.
Qed.

Lemma run_app l1 : forall w l2, w_run ops w (l1 ++ l2) =
  match w_run ops w l1 with Some (w1, b1) => match w_run ops w1 l2 with Some (w2, b2) => Some (w2, b1 ++ b2) | None => None end | None => None end.
Proof.
  induction l1 as [|c l1 IH]; intros w l2; cbn [app w_run].
  - destruct (w_run ops w l2) as [[]|]; auto.
  - destruct (w_step ops w c) as [[w1 b1]|]; auto. rewrite IH. destruct (w_run ops w1 l1) as [[w2 b2]|]; auto. destruct (w_run ops w2 l2) as [[w3 b3]|]; auto. rewrite app_assoc. auto.
Qed.
Lemma legal_app l1 : forall w l2, legal_run ops contents laws w (l1 ++ l2) ->
  legal_run ops contents laws w l1 /\ forall w1 b1, w_run ops w l1 = Some (w1, b1) -> legal_run ops contents laws w1 l2.
Proof.
  induction l1 as [|c l1 IH]; intros w l2 HL; cbn [app] in HL.
  - split; [exact Logic.I|]. cbn [w_run]. intros w1 b1 E. inversion E; subst. auto.
  - destruct HL as [H1 H2]. cbn [legal_run w_run]. split.
    + split; auto. intros w' bs E. apply (IH w' l2). eapply H2; eauto.
    + intros w1 b1 E. destruct (w_step ops w c) as [[w' bs]|] eqn:Ec; [|discriminate]. destruct (w_run ops w' l1) as [[w2 b2]|] eqn:E2; [|discriminate]. inversion E; subst.
      destruct (IH w' l2 (H2 _ _ eq_refl)) as [_ H]. eapply H; eauto.
Qed.
Lemma run_agents l : forall w h w' bs i a a', w_inv w h -> legal_run ops contents laws w l -> w_run ops w l = Some (w', bs) ->
  agent_at w i = Some a -> agent_at w' i = Some a' ->
  (forall t, beyond (ag_logical a') t -> beyond (ag_logical a) t) /\ (forall t, beyond (ag_physical a') t -> beyond (ag_physical a) t).
Proof.
  induction l as [|c l IH]; intros w h w' bs i a a' I HL E Ha Ha'; cbn [w_run] in E.
  - inversion E; subst. assert (a = a') by congruence. subst. auto.
  - destruct HL as [H1 H2]. destruct (step_ok w h c I H1) as (w1 & bs1 & E1 & I1). rewrite E1 in E. destruct (w_run ops w1 l) as [[w2 bs2]|] eqn:E2; [|discriminate]. inversion E; subst. clear E.
    destruct (step_agents _ _ _ _ _ _ _ I H1 E1 Ha) as [D1 D2].
    assert (Hd : agent_at w1 i = None -> False).
    { intros Hn. assert (Hall : forall l w w' bs, agent_at w i = None -> i < length (w_agents w) -> legal_run ops contents laws w l -> (exists h, w_inv w h) -> w_run ops w l = Some (w', bs) -> agent_at w' i = None).
      { clear. induction l as [|c l IH]; intros w w' bs Hn Hlt HL (h & I) E; cbn [w_run] in E; [inversion E; subst; auto|]. destruct HL as [H1 H2].
        destruct (step_ok w h c I H1) as (w1 & bs1 & E1 & I1). rewrite E1 in E. destruct (w_run ops w1 l) as [[w2 bs2]|] eqn:E2; [|discriminate]. inversion E; subst. clear E.
        assert (Hs : agent_at w1 i = None /\ i < length (w_agents w1)).
        { assert (Hsame : w_agents w1 = w_agents w -> agent_at w1 i = None /\ i < length (w_agents w1)) by (intros Ee; unfold agent_at in *; rewrite Ee; auto).
          assert (Hset : forall j o, j < length (w_agents w) -> j <> i -> w_agents w1 = set_nth (w_agents w) j o -> agent_at w1 i = None /\ i < length (w_agents w1)).
          { intros j o Hj Hne Ee. rewrite (agent_at_set w w1 j i o Hj Ee), Ee, set_nth_length by auto. destruct (Nat.eqb_spec i j); [congruence|auto]. }
          destruct c as [j|j|j F|j F|b hint|up| |answer|j|j|j]; cbn [w_step] in E1.
          - destruct (w_box w); [|inversion E1; subst; auto]. destruct (agent_at w j); [|inversion E1; subst; auto]. destruct (agent_clone ops t a) as [[bx a']|]; [|discriminate]. inversion E1; subst.
            unfold agent_at in *. cbn [w_agents]. rewrite nth_error_app1, app_length by auto. split; [auto|lia].
          - destruct (w_box w); [|inversion E1; subst; auto]. destruct (agent_at w j) eqn:Ej; [|inversion E1; subst; auto]. destruct (agent_drop ops t a) as [bx|]; [|discriminate]. inversion E1; subst.
            eapply Hset; [eapply agent_at_lt; eauto|congruence|reflexivity].
          - destruct (w_box w); [|inversion E1; subst; auto]. destruct (agent_at w j) eqn:Ej; [|inversion E1; subst; auto]. inversion E1; subst. eapply Hset; [eapply agent_at_lt; eauto|congruence|reflexivity].
          - destruct (w_box w); [|inversion E1; subst; auto]. destruct (agent_at w j) eqn:Ej; [|inversion E1; subst; auto]. destruct (agent_set_physical ops t a F) as [[bx a']|]; [|discriminate]. inversion E1; subst.
            eapply Hset; [eapply agent_at_lt; eauto|congruence|reflexivity].
          - apply Hsame. destruct (w_writer w) as [up|] eqn:Ew; [|inversion E1; subst; auto]. cbn [legal] in H1. rewrite Ew in H1. destruct H1 as (Pb & Hl & Hs & _).
            destruct (insert_ok w h up b hint I Ew Pb Hl Hs) as (w3 & E3 & _ & _ & Ea1 & _). rewrite E3 in E1. inversion E1; subst. auto.
          - apply Hsame. destruct (w_writer w) as [at_|] eqn:Ew; [|inversion E1; subst; auto]. cbn [legal] in H1. rewrite Ew in H1. destruct H1 as [Hac Hle].
            destruct (seal_ok w h at_ up I Ew Hac Hle) as (w3 & bs3 & E3 & _ & _ & Ea1 & _). rewrite E3 in E1. inversion E1; subst. auto.
          - apply Hsame. destruct (w_writer w) as [at_|] eqn:Ew; [|inversion E1; subst; auto].
            destruct (seal_ok w h at_ [] I Ew) as (w3 & bs3 & E3 & _ & _ & Ea1 & _); [constructor|intros t Ht; destruct (beyond_nil t Ht)|]. rewrite E3 in E1. inversion E1; subst. auto.
          - apply Hsame. destruct (w_writer w); [|inversion E1; subst; auto]. destruct (w_box w) as [bx|]; [|inversion E1; subst; auto]. destruct (spine_exert ops (bx_trace bx) answer); [|discriminate]. inversion E1; subst. auto.
          - apply Hsame. destruct (w_box w); [|inversion E1; subst; auto]. destruct (agent_at w j); inversion E1; subst; auto.
          - apply Hsame. destruct (nth_error (w_listeners w) j) as [[[r l0]|]|]; inversion E1; subst; auto.
          - apply Hsame. inversion E1; subst; auto. }
        eapply IH; [exact (proj1 Hs)|exact (proj2 Hs)| |eauto|exact E2]. eapply H2; eauto. }
      assert (Hlt : i < length (w_agents w1)).
      { destruct c as [j|j|j F|j F|b hint|up| |answer|j|j|j]; try (destruct D2 as (a1 & Ha1 & _); [discriminate|congruence]).
        destruct (Nat.eq_dec i j) as [<-|Hne]; [|destruct D2 as (a1 & Ha1 & _); [congruence|congruence]].
        cbn [w_step] in E1. pose proof (agent_at_lt _ _ _ Ha) as Hlt. rewrite Ha in E1. destruct (w_box w); [|inversion E1; subst; auto]. destruct (agent_drop ops t a); [|discriminate]. inversion E1; subst. cbn [w_agents]. rewrite set_nth_length; auto. }
      rewrite (Hall l w1 w' bs2 Hn Hlt (H2 _ _ E1) (ex_intro _ _ I1) E2) in Ha'. discriminate. }
    assert (Hc : c <> CDrop i) by (intros Hc; apply Hd; apply D1; auto).
    destruct (D2 Hc) as (a1 & Ha1 & L1 & P1). destruct (IH _ _ _ _ _ _ _ I1 (H2 _ _ E1) E2 Ha1 Ha') as [L2 P2].
    split; intros t Ht; [exact (proj1 (proj1 (L1 t) (L2 t Ht)))|exact (proj1 (proj1 (P1 t) (P2 t Ht)))].
Qed.
Lemma tiles_app_inv h1 : forall lo h2 up mid, tiles ops lo (h1 ++ h2) up -> tiles ops lo h1 mid -> tiles ops mid h2 up.
Proof. intros lo h2 up mid H1 H2. destruct (SpineP.tiles_app _ _ _ _ _ H1) as (mid' & T1 & T2). exact (tiles_lo _ _ _ _ _ T2 (tiles_fun _ _ _ _ _ T1 H2)). Qed.
Lemma tiles_app h1 : forall lo h2 up mid, tiles ops lo h1 mid -> tiles ops mid h2 up -> tiles ops lo (h1 ++ h2) up.
Proof. intros lo h2 up mid H1 H2. eapply tiles_cat; eauto. Qed.
Lemma batches_announce bs : batches_of (announce ops bs) = map fst bs.
Proof. induction bs as [|[b x] bs IH]; auto. cbn [announce flat_map batches_of app map fst]. fold (announce ops bs). f_equal. exact IH. Qed.
Lemma batches_start (bs : list B) : batches_of (map (fun b => IBatch b (Some (tmin : T))) bs) = bs.
Proof. induction bs as [|b bs IH]; auto. cbn [map batches_of flat_map app]. f_equal. exact IH. Qed.
Lemma batches_app (i1 i2 : list (instruction B T)) : batches_of (i1 ++ i2) = batches_of i1 ++ batches_of i2.
Proof. apply flat_map_app. Qed.
Lemma frontier_announced bs : forall F up, tiles ops F (map fst bs) up ->
  same_future (fold_left (fun F (i : instruction B T) => match i with IBatch _ _ => F | IFrontier G => G end) (announce ops bs) F) up.
Proof.
  induction bs as [|[b x] bs IH]; intros F up HT; inversion HT; subst; cbn [announce flat_map app fold_left fst]; auto.
Qed.
Lemma frontier_started (bs : list B) : forall F : list T,
  fold_left (fun F (i : instruction B T) => match i with IBatch _ _ => F | IFrontier G => G end) (map (fun b => IBatch b (Some (tmin : T))) bs) F = F.
Proof. induction bs as [|b bs IH]; intros F; cbn [map fold_left]; auto. Qed.

(** everything about a queue attached between two runs *)
Lemma listen_ok w1 h1 i a l2 : w_inv w1 h1 -> attached w1 -> legal_run ops contents laws w1 (CListen i :: l2) -> agent_at w1 i = Some a ->
  ~ In (CDropListener (length (w_listeners w1))) l2 ->
  exists w2 log2 r l held up1, w_run ops w1 (CListen i :: l2) = Some (w2, log2) /\ w_inv w2 (h1 ++ map fst log2) /\ Forall hinted log2 /\
    nth_error (w_listeners w2) (length (w_listeners w1)) = Some (Some (r, l)) /\
    received l = (map (fun b => IBatch b (Some tmin)) held ++ match h1 with [] => [] | _ => [IFrontier up1] end) ++ announce ops log2 /\ same_future up1 (w_upper w1) /\ antichain up1 /\
    (h1 = [] <-> held = []) /\ tiles ops [tmin] held up1 /\ tiles ops up1 (map fst log2) (w_upper w2) /\
    (forall bx, w_box w1 = Some bx -> held = map_batches (bx_trace bx)).
Proof.
  intros I HA [H1 H2] Ha Hnd. pose proof (wi_box _ _ I) as Hbx. destruct (w_box w1) as [bx|] eqn:Eb; [|exfalso; apply agent_live in Ha; rewrite Hbx in Ha; destruct Ha].
  destruct Hbx as [[B1 B2 (n & HS)] _].
  destruct (w_step ops w1 (CListen i)) as [[w1' bs1]|] eqn:E1; [|cbn [w_step] in E1; rewrite Eb, Ha in E1; discriminate].
  destruct (step_ok _ _ _ I H1) as (w1'' & bs1' & E1' & I1). rewrite E1 in E1'. inversion E1'; subst w1'' bs1'. clear E1'.
  destruct (step_queues _ _ _ _ _ I H1 HA E1) as (A1 & _). specialize (H2 _ _ eq_refl).
  cbn [w_step] in E1. rewrite Eb, Ha in E1. inversion E1; subst bs1. cbn [map] in I1. rewrite app_nil_r in I1.
  assert (Q0 : queue_at w1' (length (w_listeners w1)) = Some (listener_start ops (bx_trace bx))).
  { inversion E1; subst w1'. unfold queue_at. cbn [w_listeners]. rewrite nth_error_app2, Nat.sub_diag by lia. cbn [nth_error]. auto. }
  assert (U1 : w_upper w1' = w_upper w1) by (inversion E1; subst; auto).
  destruct (run_ok _ _ _ I1 H2) as (w2 & log2 & E2 & I2). destruct (run_queues _ _ _ _ _ I1 H2 A1 E2) as [A2 Q2]. pose proof (run_hinted _ _ _ _ _ I1 H2 E2) as HH.
  specialize (Q2 _ _ Hnd Q0). unfold queue_at in Q2. destruct (nth_error (w_listeners w2) (length (w_listeners w1))) as [[[r l]|]|] eqn:El; try discriminate.
  destruct (listener_start_ok _ _ _ _ _ _ HS) as (up1 & Sf1 & Ac1 & Es1). exists w2, log2, r, l, (map_batches (bx_trace bx)), up1. rewrite Es1 in Q2.
  cbn [w_run w_step]. rewrite Eb, Ha. inversion E1; subst w1'. rewrite E2. split; [auto|split; [auto|split; [auto|split; [auto|]]]].
  split; [congruence|]. split; [exact Sf1|]. split; [exact Ac1|]. pose proof (Sinv_cov _ _ _ _ _ _ _ _ _ HS) as HC. split; [|split; [|split]].
  - destruct HC as (gs & <- & HF). split; intros H0.
    + destruct HF as [|b g bs gs Hc HF]; auto. destruct Hc as [_ _ (x & rr & -> & _) _ _ _]. discriminate.
    + rewrite H0 in HF. inversion HF. auto.
  - exact (tiles_up _ _ _ _ _ (cov_tiles _ _ _ _ _ _ HC _ _ (wi_tiles _ _ I)) (same_future_sym _ _ Sf1)).
  - eapply tiles_app_inv; [apply (wi_tiles _ _ I2)|]. exact (tiles_up _ _ _ _ _ (wi_tiles _ _ I) (same_future_sym _ _ Sf1)).
  - intros bx' E. inversion E; subst. auto.
Qed.
End World.
