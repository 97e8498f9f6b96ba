(** A cursor at a position of the trie it presents, when values are not sought. *)
From Verif Require Export Spec.Presents Proofs.ReplayP Proofs.CursorP.

Definition no_seek_val {K V} (p : pos) (op : nav K V) : Prop := match op with SeekVal _ => False | _ => True end.

Lemma presents_weaken {St C K V T R} {OK : Ord K} {OV : Ord V} (ops : CursorOps St C K V T R) st c0 tr (ok : pos -> nav K V -> Prop) :
  presents ops st c0 tr -> presents_if ok ops st c0 tr.
Proof.
  intros H navs p HR. apply H. clear H. induction HR; constructor; auto.
Qed.
Lemma presents_if_weaken {St C K V T R} {OK : Ord K} {OV : Ord V} (ops : CursorOps St C K V T R) st c0 tr (ok ok' : pos -> nav K V -> Prop) :
  (forall p op, ok' p op -> ok p op) -> presents_if ok ops st c0 tr -> presents_if ok' ops st c0 tr.
Proof.
  intros HI H navs p HR. apply H. clear H. induction HR; constructor; auto.
Qed.
Lemma shared_no_seek {K V T R} {OK : Ord K} {OV : Ord V} (trs : list (trie K V T R)) p op : no_seek_val p op -> shared_seeks trs p op.
Proof. destruct op; simpl; tauto. Qed.

Section Shows.
Context {St C K V T R : Type} {OK : Ord K} {OV : Ord V}.
Variable ops : CursorOps St C K V T R.

Definition shows (st : St) (tr : trie K V T R) (c : C) (p : pos) : Prop :=
  exists c0 navs, presents_if no_seek_val ops st c0 tr /\ run_if no_seek_val tr start navs p /\ c_run ops st c0 navs = Some c.

Lemma shows_start st tr c0 : presents_if no_seek_val ops st c0 tr -> shows st tr c0 start.
Proof. intros H. exists c0, []. repeat split; auto. constructor. Qed.
Lemma run_if_snoc (ok : pos -> nav K V -> Prop) (tr : trie K V T R) p navs p' op :
  run_if ok tr p navs p' -> legal tr p' op -> ok p' op -> run_if ok tr p (navs ++ [op]) (move tr p' op).
Proof. induction 1; intros HL HO; simpl; constructor; auto. constructor. Qed.
Lemma c_run_snoc st op navs : forall c, c_run ops st c (navs ++ [op]) = (c' <- c_run ops st c navs; c_nav ops st c' op).
Proof.
  induction navs as [|o navs IH]; intros c; simpl; [destruct (c_nav ops st c op); auto|].
  destruct (c_nav ops st c o); auto.
Qed.
Lemma shows_obs st tr c p : shows st tr c p -> c_observe ops st c = Some (observation tr p).
Proof. intros (c0 & navs & HP & HR & HC). destruct (HP navs p HR) as (c' & E & O). rewrite HC in E. inversion E; subst; auto. Qed.
Lemma shows_nav st tr c p op : shows st tr c p -> legal tr p op -> no_seek_val p op ->
  exists c', c_nav ops st c op = Some c' /\ shows st tr c' (move tr p op).
Proof.
  intros (c0 & navs & HP & HR & HC) HL HO. pose proof (run_if_snoc _ _ _ _ _ _ HR HL HO) as HR'.
  destruct (HP _ _ HR') as (c' & E & _). rewrite c_run_snoc, HC in E. exists c'. split; auto.
  exists c0, (navs ++ [op]). repeat split; auto. rewrite c_run_snoc, HC; auto.
Qed.
Lemma shows_get_key st tr c p : shows st tr c p -> c_get_key ops st c = Some (at_key tr p).
Proof.
  intros H. apply shows_obs in H. unfold c_observe, observation in H. destruct (c_get_key ops st c) as [ko|]; [|discriminate].
  destruct (c_key_valid ops st c) as [kv|]; [|discriminate]. destruct ko as [k|].
  - destruct (c_key ops st c) as [k'|]; [|discriminate]. destruct (c_get_val ops st c) as [vo|]; [|discriminate].
    destruct (c_val_valid ops st c) as [vv|]; [|discriminate]. destruct (eqb k k' && kv); [|discriminate].
    destruct (at_key tr p) as [k0|]; destruct vo as [v|];
      try (destruct (c_val ops st c) as [v'|]; [|discriminate]; destruct (c_map_times ops st c); [|discriminate]; destruct (eqb v v' && vv); [|discriminate]);
      try (destruct vv; [discriminate|]); inversion H; auto.
  - destruct kv; [discriminate|]. destruct (at_key tr p); [discriminate|auto].
Qed.
Lemma shows_get_val st tr c p k : shows st tr c p -> at_key tr p = Some k ->
  c_get_val ops st c = Some (at_val tr p) /\ (at_val tr p <> None -> c_map_times ops st c = Some (at_times tr p)).
Proof.
  intros H Hk. apply shows_obs in H. unfold c_observe, observation in H. rewrite Hk in H. destruct (c_get_key ops st c) as [ko|]; [|discriminate].
  destruct (c_key_valid ops st c) as [kv|]; [|discriminate]. destruct ko as [k1|]; [|destruct kv; discriminate].
  destruct (c_key ops st c) as [k'|]; [|discriminate]. destruct (c_get_val ops st c) as [vo|]; [|discriminate].
  destruct (c_val_valid ops st c) as [vv|]; [|discriminate]. destruct (eqb k1 k' && kv); [|discriminate].
  destruct vo as [v|].
  - destruct (c_val ops st c) as [v'|]; [|discriminate]. destruct (c_map_times ops st c) as [ts|]; [|discriminate]. destruct (eqb v v' && vv); [|discriminate].
    destruct (at_val tr p); inversion H; subst. auto.
  - destruct vv; [discriminate|]. destruct (at_val tr p); inversion H. split; auto. congruence.
Qed.
End Shows.

(** Loading the edits of the current key. *)
Section Load.
Context {St C K V T R : Type} {OK : Ord K} {OV : Ord V} {TT : Time T} {DR : Diff R}.
Variable ops : CursorOps St C K V T R.

Definition flatv (adv : option T) (vs : list (V * list (T * R))) : list (V * T * R) :=
  flat_map (fun vu => map (fun td => (fst vu, advance_opt adv (fst td), snd td)) (snd vu)) vs.

Lemma el_load_loop_ok st tr adv k vs : forall fuel i j c (el : EditList V T R) gs, nth_error tr i = Some (k, vs) ->
  shows ops st tr c {| kp := i; vp := j |} -> j <= length vs -> length vs - j <= fuel -> el_rel el gs [] -> groups_ok gs ->
  exists c' el' gs', el_load_loop ops fuel st c adv el = Some (c', el') /\ shows ops st tr c' {| kp := i; vp := length vs |} /\
    el_rel el' gs' [] /\ groups_ok gs' /\ same_weights (A:=V*T) (ungroup gs') (ungroup gs ++ flatv adv (skipn j vs)).
Proof.
  induction fuel as [|fuel IH]; intros i j c el gs Hi HS Hj Hf HR HG.
  - assert (j = length vs) by lia. subst j. assert (Hk : at_key tr {| kp := i; vp := length vs |} = Some k) by (unfold at_key; simpl; rewrite Hi; auto).
    destruct (shows_get_val _ _ _ _ _ _ HS Hk) as [Ev _].
    assert (Hn : at_val tr {| kp := i; vp := length vs |} = None).
    { unfold at_val, cur_vals. simpl. rewrite Hi. rewrite (proj2 (nth_error_None vs (length vs))); auto. }
    cbn [el_load_loop]. rewrite Ev, Hn. exists c, el, gs. split; [auto|]. split; [auto|]. split; [auto|]. split; [auto|].
    rewrite skipn_all. simpl. rewrite app_nil_r. apply same_weights_refl.
  - assert (Hk : at_key tr {| kp := i; vp := j |} = Some k) by (unfold at_key; simpl; rewrite Hi; auto).
    destruct (shows_get_val _ _ _ _ _ _ HS Hk) as [Ev Et].
    assert (Hcv : cur_vals tr {| kp := i; vp := j |} = vs) by (unfold cur_vals; simpl; rewrite Hi; auto).
    cbn [el_load_loop]. rewrite Ev. destruct (nth_error vs j) as [[v ts]|] eqn:En.
    + assert (Hv : at_val tr {| kp := i; vp := j |} = Some v) by (unfold at_val; rewrite Hcv; simpl; rewrite En; auto).
      assert (Hts : at_times tr {| kp := i; vp := j |} = ts) by (unfold at_times; rewrite Hcv; simpl; rewrite En; auto).
      rewrite Hv in *. rewrite Et, Hts by discriminate.
      destruct (el_seal_rel _ _ _ v (el_push_all_rel adv ts _ _ _ HR)) as (el1 & E1 & R1). rewrite E1.
      destruct (shows_nav _ _ _ _ _ StepVal HS) as (c1 & Ec & S1); [simpl; congruence|exact I|]. simpl in Ec. rewrite Ec.
      assert (Hlt : j < length vs) by (apply nth_error_Some; congruence).
      cbn [move kp vp] in S1. rewrite Hcv, Nat.min_l in S1 by lia.
      destruct (IH i (S j) c1 el1 _ Hi S1 ltac:(lia) ltac:(lia) R1 (sealed_ok _ _ _ HG)) as (c' & el' & gs' & E & S' & R' & G' & W).
      exists c', el', gs'. split; [auto|]. split; [auto|]. split; [auto|]. split; [auto|].
      eapply same_weights_trans; [exact W|]. rewrite (nth_error_skipn_cons vs j (v, ts)) by auto. unfold flatv at 2. cbn [flat_map fst snd].
      rewrite app_assoc. apply same_weights_app; [|apply same_weights_refl].
      eapply same_weights_trans; [apply sealed_weights|]. cbn [app]. rewrite map_map. apply same_weights_refl.
    + assert (j = length vs) by (apply nth_error_None in En; lia). subst j.
      assert (Hn : at_val tr {| kp := i; vp := length vs |} = None) by (unfold at_val; rewrite Hcv; simpl; rewrite En; auto).
      rewrite Hn. exists c, el, gs. split; [auto|]. split; [auto|]. split; [auto|]. split; [auto|].
      rewrite skipn_all. simpl. rewrite app_nil_r. apply same_weights_refl.
Qed.

(** load: from the first value of a key *)
Lemma el_load_ok st tr adv k vs fuel i c : nth_error tr i = Some (k, vs) -> shows ops st tr c {| kp := i; vp := 0 |} -> length vs <= fuel ->
  exists c' el us, el_load ops fuel st c adv = Some (c', el) /\ shows ops st tr c' {| kp := i; vp := length vs |} /\
    el_map el = Some us /\ same_weights (A:=V*T) us (flatv adv vs).
Proof.
  intros Hi HS Hf. destruct (el_load_loop_ok st tr adv k vs fuel i 0 c el_new [] Hi HS ltac:(lia) ltac:(lia) el_new_rel ltac:(constructor))
    as (c' & el & gs & E & S' & R' & G & W).
  exists c', el, (ungroup gs). split; [exact E|]. split; [auto|]. split; [apply el_map_rel; auto|]. exact W.
Qed.
End Load.
