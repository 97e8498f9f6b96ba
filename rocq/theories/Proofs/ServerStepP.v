From Coq Require Import String.
From Verif Require Export Proofs.ServerInvP.
From Coq Require Import Lia Permutation.

Lemma mapO_values {K V W : Type} (keq : forall a b : K, {a = b} + {a <> b}) (g : V -> option W) : forall (l : list (K * V)) ys,
  mapO (fun e => p <- g (snd e); Some (fst e, p)) l = Some ys ->
  map fst ys = map fst l /\ forall k, mget keq ys k = match mget keq l k with Some v => g v | None => None end.
Proof.
  induction l as [|[k v] l IH]; simpl; intros ys; [injection 1 as <-; auto|].
  destruct (g v) as [w|] eqn:G; [|discriminate]. destruct (mapO _ l) as [ys'|]; [|discriminate]. injection 1 as <-.
  destruct (IH _ eq_refl) as [A B]. split; [simpl; congruence|]. intros j. simpl. destruct (keq k j); auto.
Qed.
Lemma mapO_values_in {K V W : Type} (g : V -> option W) : forall (l : list (K * V)) ys,
  mapO (fun e => p <- g (snd e); Some (fst e, p)) l = Some ys -> forall k w, In (k, w) ys -> exists v, In (k, v) l /\ g v = Some w.
Proof.
  induction l as [|[k v] l IH]; simpl; intros ys; [injection 1 as <-; intros ? ? []|].
  destruct (g v) as [w|] eqn:G; [|discriminate]. destruct (mapO _ l) as [ys'|]; [|discriminate]. injection 1 as <-.
  intros k' w' [E|I]; [injection E as <- <-; eauto|]. destruct (IH _ eq_refl _ _ I) as (v' & X & Y). eauto.
Qed.
Lemma mapO_values_some {K V W : Type} (g : V -> option W) (l : list (K * V)) : (forall k v, In (k, v) l -> g v <> None) ->
  exists ys, mapO (fun e => p <- g (snd e); Some (fst e, p)) l = Some ys.
Proof. intros H. apply mapO_all. intros [k v] I. simpl. specialize (H k v I). destruct (g v); congruence. Qed.

(** ** peek *)
Lemma peek_worker sv wk reads : inv sv wk -> wk_running (drop_dataflow (wk_next wk) (dataflow reads wk)) = wk_running wk.
Proof.
  intros J. cbn [drop_dataflow dataflow wk_running]. pose proof (next_fresh sv wk J) as NF. unfold mput. unfold mdel at 1. simpl.
  destruct (Nat.eq_dec (wk_next wk) (wk_next wk)); [|contradiction].
  change (ndel (ndel (wk_running wk) (wk_next wk)) (wk_next wk) = wk_running wk).
  rewrite (mdel_none Nat.eq_dec (wk_running wk) (wk_next wk) NF). apply (mdel_none Nat.eq_dec (wk_running wk) (wk_next wk) NF).
Qed.
Lemma inv_worker sv wk wk' : inv sv wk -> wk_running wk' = wk_running wk -> wk_next wk <= wk_next wk' -> inv sv wk'.
Proof.
  intros [J1 J2 J3 J4 J5 J6 J7 J8 J9 J10 J11 J12 J13] E L. unfold running in *. constructor; unfold running; rewrite ?E; auto.
  intros id reads R. apply J4 in R. lia.
Qed.
Lemma peek_ok name sv wk sv' wk' o : inv sv wk -> peek name sv wk = Some (sv', wk', o) ->
  sv' = sv /\ wk_running wk' = wk_running wk /\ wk_index wk' = wk_index wk /\ wk_peers wk' = wk_peers wk /\ inv sv' wk' /\ (o = Refused -> wk' = wk) /\
  (o = Done <-> exists tr, published sv (canonical_source_name name) tr).
Proof.
  intros J. unfold peek. destruct (sget (sv_traces sv) (canonical_source_name name)) as [tr|] eqn:E.
  - injection 1 as <- <- <-. pose proof (peek_worker sv wk [(canonical_source_name name, tr_dataflow tr)] J) as W.
    split; [auto|split; [auto|split; [auto|split; [auto|split; [eapply inv_worker; eauto; simpl; lia|split; [discriminate|]]]]]]. split; [intros _; exists tr; exact E|auto].
  - injection 1 as <- <- <-. split; [auto|split; [auto|split; [auto|split; [auto|split; [auto|split; [auto|]]]]]]. split; [discriminate|]. intros [tr P]. unfold published in P. congruence.
Qed.

(** ** feed *)
Lemma inv_inputs sv wk n p ins : inv sv wk -> installed sv n p -> NoDup (map fst ins) -> (forall k h, In (k, h) ins -> se_time h = sv_epoch sv) ->
  inv (set_programs (sput (sv_programs sv) n (set_inputs ins p)) sv) wk.
Proof.
  intros [J1 J2 J3 J4 J5 J6 J7 J8 J9 J10 J11 J12 J13] I U T.
  assert (PI : forall m q, installed (set_programs (sput (sv_programs sv) n (set_inputs ins p)) sv) m q <-> (m = n /\ q = set_inputs ins p) \/ (m <> n /\ installed sv m q)) by (intros; apply installed_put).
  assert (PX : forall m q, installed (set_programs (sput (sv_programs sv) n (set_inputs ins p)) sv) m q -> exists q', installed sv m q' /\ in_dataflow q' = in_dataflow q /\ in_imports q' = in_imports q /\ in_exports q' = in_exports q).
  { intros m q X. apply PI in X as [[-> ->]|[N X]]; [exists p; auto|exists q; auto]. }
  constructor; auto.
  - apply mput_unique. auto.
  - intros m q X. destruct (PX _ _ X) as (q' & I' & E1 & E2 & E3). rewrite <- E1, <- E2. eauto.
  - intros m q m2 q2 X Y E. destruct (PX _ _ X) as (q' & I' & E1 & _). destruct (PX _ _ Y) as (q2' & I2' & E1' & _). eapply J6; eauto. congruence.
  - intros m q t X Y. destruct (PX _ _ X) as (q' & I' & E1 & E2 & E3). rewrite <- E3 in Y. rewrite <- E1. eapply J8; eauto.
  - intros m q t tr X Y E. destruct (PX _ _ X) as (q' & I' & E1 & E2 & E3). rewrite <- E3. rewrite <- E1 in E. eapply J9; eauto.
  - intros m q k h X Y. apply PI in X as [[-> ->]|[N X]]; [eapply T; eauto|cbn [set_programs sv_epoch]; eauto].
  - intros m q X. apply PI in X as [[-> ->]|[N X]]; eauto.
Qed.

Definition fed_time (time : option nat) (sv : Server) : nat := match time with Some t => t | None => sv_epoch sv end.
Lemma feed_some prog input key val time diff sv wk : inv sv wk -> feed prog input key val time diff sv <> None.
Proof.
  intros J. unfold feed. destruct (Nat.ltb_spec (fed_time time sv) (sv_epoch sv)) as [L|L]; unfold fed_time in L; [apply Nat.ltb_lt in L; rewrite L; discriminate|].
  apply Nat.ltb_ge in L. rewrite L. destruct (sget (sv_programs sv) (canonical_source_name prog)) as [p|] eqn:E; [|discriminate].
  destruct (in_origin p); try discriminate. destruct (nget (in_inputs p) input) as [h|] eqn:G; [|discriminate].
  apply mget_in in G. rewrite session_update_some; [discriminate|]. erewrite i_time; eauto. apply Nat.ltb_ge in L. auto.
Qed.
Lemma feed_ok prog input key val time diff sv wk sv' o : inv sv wk -> feed prog input key val time diff sv = Some (sv', o) ->
  inv sv' wk /\ (o = Refused -> sv' = sv) /\
  (o = Done <-> sv_epoch sv <= fed_time time sv /\ exists p h, installed sv (canonical_source_name prog) p /\ in_origin p = OProgram /\ nget (in_inputs p) input = Some h) /\
  (o = Done -> exists p h, installed sv (canonical_source_name prog) p /\ nget (in_inputs p) input = Some h /\
    sv' = set_programs (sput (sv_programs sv) (canonical_source_name prog) (set_inputs (nput (in_inputs p) input {| se_time := sv_epoch sv; se_rows := se_rows h ++ [((key, val), fed_time time sv, diff)] |}) p)) sv).
Proof.
  intros J. unfold feed. fold (fed_time time sv). destruct (Nat.ltb_spec (fed_time time sv) (sv_epoch sv)) as [L|L].
  { injection 1 as <- <-. split; [auto|split; [auto|split; [|discriminate]]]. split; [discriminate|]. intros [? _]. lia. }
  destruct (sget (sv_programs sv) (canonical_source_name prog)) as [p|] eqn:E.
  2: { injection 1 as <- <-. split; [auto|split; [auto|split; [|discriminate]]]. split; [discriminate|]. intros (_ & p & h & I & _). unfold installed in I. congruence. }
  assert (NO : in_origin p <> OProgram -> Some (sv, Refused) = Some (sv', o) -> inv sv' wk /\ (o = Refused -> sv' = sv) /\
    (o = Done <-> sv_epoch sv <= fed_time time sv /\ exists p h, installed sv (canonical_source_name prog) p /\ in_origin p = OProgram /\ nget (in_inputs p) input = Some h) /\
    (o = Done -> exists p h, installed sv (canonical_source_name prog) p /\ nget (in_inputs p) input = Some h /\
    sv' = set_programs (sput (sv_programs sv) (canonical_source_name prog) (set_inputs (nput (in_inputs p) input {| se_time := sv_epoch sv; se_rows := se_rows h ++ [((key, val), fed_time time sv, diff)] |}) p)) sv)).
  { intros N. injection 1 as <- <-. split; [auto|split; [auto|split; [|discriminate]]]. split; [discriminate|].
    intros (_ & p' & h & I & O & _). unfold installed in I. congruence. }
  destruct (in_origin p) eqn:O; try (apply NO; discriminate). clear NO.
  destruct (nget (in_inputs p) input) as [h|] eqn:G.
  2: { injection 1 as <- <-. split; [auto|split; [auto|split; [|discriminate]]]. split; [discriminate|]. intros (_ & p' & h & I & _ & G'). unfold installed in I. congruence. }
  pose proof (mget_in _ _ _ _ G) as GI. pose proof (i_time _ _ J _ _ _ _ E GI) as TE.
  rewrite session_update_some by lia. rewrite TE. injection 1 as <- <-.
  split; [|split; [discriminate|split]].
  - apply inv_inputs; auto.
    + apply mput_unique. eapply i_inputs; eauto.
    + intros k h' [X|X]; [injection X as <- <-; auto|]. apply in_mdel in X as []. eapply i_time; eauto.
  - split; auto. intros _. split; auto. exists p, h. auto.
  - intros _. exists p, h. auto.
Qed.

(** ** drop *)
Lemma drop_ok name sv wk sv' wk' o : inv sv wk -> drop_program name sv wk = Some (sv', wk', o) ->
  inv sv' wk' /\ (o = Refused -> sv' = sv /\ wk' = wk) /\
  (o = Done <-> exists p, installed sv (canonical_source_name name) p /\ forall t, In t (in_exports p) -> ~ in_use wk t) /\
  (o = Done -> exists p, installed sv (canonical_source_name name) p /\ sv_epoch sv' = sv_epoch sv /\ wk_index wk' = wk_index wk /\ wk_peers wk' = wk_peers wk /\
    (forall n q, installed sv' n q <-> installed sv n q /\ n <> canonical_source_name name) /\
    (forall t tr, published sv' t tr <-> published sv t tr /\ ~ In t (in_exports p)) /\
    (forall id reads, running wk' id reads <-> running wk id reads /\ id <> in_dataflow p)).
Proof.
  intros J. unfold drop_program. set (n0 := canonical_source_name name).
  destruct (sget (sv_programs sv) n0) as [p|] eqn:E.
  2: { injection 1 as <- <- <-. split; [auto|split; [auto|split; [|discriminate]]]. split; [discriminate|]. intros (p & I & _). unfold installed in I. congruence. }
  assert (EX : existsb (fun ex => 0 <? count_of (sv_importers sv) ex) (in_exports p) = false <-> forall t, In t (in_exports p) -> ~ in_use wk t).
  { split.
    - intros X t I U. assert (existsb (fun ex => 0 <? count_of (sv_importers sv) ex) (in_exports p) = true); [|congruence].
      apply existsb_exists. exists t. split; auto. apply Nat.ltb_lt. rewrite (i_count _ _ J). apply uses_in_use in U; [lia|apply J].
    - intros X. destruct (existsb _ _) eqn:Y; auto. apply existsb_exists in Y as (t & I & L). apply Nat.ltb_lt in L. rewrite (i_count _ _ J) in L.
      exfalso. apply (X t I). apply uses_in_use; [apply J|lia]. }
  destruct (existsb _ _) eqn:X.
  { injection 1 as <- <- <-. split; [auto|split; [auto|split; [|discriminate]]]. split; [discriminate|]. intros (q & I & H). unfold installed in I.
    assert (q = p) by congruence. subst q. apply EX in H. discriminate. }
  injection 1 as <- <- <-. apply proj1 in EX. specialize (EX eq_refl).
  set (sv' := {| sv_traces := _; sv_programs := _; sv_importers := _; sv_epoch := _ |}).
  assert (PI : forall n q, installed sv' n q <-> installed sv n q /\ n <> n0).
  { intros n q. unfold installed, sv'. cbn [sv_programs]. destruct (string_dec n n0) as [->|N]; [rewrite mget_del_eq; split; [discriminate|intros []; contradiction]|rewrite mget_del_ne by auto; tauto]. }
  assert (PP : forall t tr, published sv' t tr <-> published sv t tr /\ ~ In t (in_exports p)).
  { intros t tr. unfold published, sv'. cbn [sv_traces]. rewrite delete_all_spec. destruct (in_dec string_dec t (in_exports p)); [split; [discriminate|tauto]|tauto]. }
  assert (PR : forall id reads, running (drop_dataflow (in_dataflow p) wk) id reads <-> running wk id reads /\ id <> in_dataflow p).
  { intros id reads. unfold running. cbn [drop_dataflow wk_running]. destruct (Nat.eq_dec id (in_dataflow p)) as [->|N]; [rewrite mget_del_eq; split; [discriminate|intros []; contradiction]|rewrite mget_del_ne by auto; tauto]. }
  split; [|split; [discriminate|split]].
  - pose proof J as [J1 J2 J3 J4 J5 J6 J7 J8 J9 J10 J11 J12 J13]. constructor.
    + apply delete_all_unique. auto.
    + apply mdel_unique. auto.
    + apply mdel_unique. auto.
    + intros id reads R. apply PR in R as [R _]. apply J4 in R. auto.
    + intros n q I. apply PI in I as [I N]. destruct (J5 _ _ I) as (reads & R & F). exists reads. split; auto. apply PR. split; auto. intros Q. apply N. eapply J6; eauto.
    + intros n q m q' I1 I2 Q. apply PI in I1 as [I1 _]. apply PI in I2 as [I2 _]. eauto.
    + intros t tr P. apply PP in P as [P N]. destruct (J7 _ _ P) as ((reads & R) & L). split; auto. exists reads. apply PR. split; auto. intros Q. apply N. eapply J9; eauto.
    + intros n q t I Y. apply PI in I as [I N]. destruct (J8 _ _ _ I Y) as (tr & P & Q). exists tr. split; auto. apply PP. split; auto.
      intros Z. destruct (J8 _ _ _ E Z) as (tr' & P' & Q'). apply N. unfold published in *. eapply J6; eauto. congruence.
    + intros n q t tr I P Q. apply PI in I as [I N]. apply PP in P as [P _]. eauto.
    + intros id reads t r R Y. apply PR in R as [R N]. destruct (J10 _ _ _ _ R Y) as (tr & P & Q). exists tr. split; auto. apply PP. split; auto.
      intros Z. apply (EX t Z). exists id, reads, r. auto.
    + intros t. unfold sv'. cbn [sv_importers drop_dataflow wk_running]. rewrite count_down_spec, J11.
      destruct (J5 _ _ E) as (reads & R & F). rewrite (uses_del _ _ _ t J3 R), F. lia.
    + intros n q k h I Y. apply PI in I as [I _]. cbn [sv' sv_epoch]. eauto.
    + intros n q I. apply PI in I as [I _]. eauto.
  - split; [intros _; exists p; split; [exact E|exact EX]|auto].
  - intros _. exists p. split; [exact E|]. repeat (split; [reflexivity|]). split; [exact PI|split; [exact PP|exact PR]].
Qed.

(** ** tick *)
Definition ticked_rows (w0 : bool) (cur : nat) (p : Installed) (k : nat) (rows : list (row * nat * Z)) : list (row * nat * Z) :=
  match in_origin p with
  | OClock => if w0 && (k =? 0) then rows ++ [((clock_row cur, VTuple []), S cur, (-1)%Z); ((clock_row (S cur), VTuple []), S cur, 1%Z)] else rows
  | _ => rows
  end.
Lemma advance_all cur ins : (forall k h, In (k, h) ins -> se_time h <= S cur) ->
  exists ins', mapO (fun e => h <- session_advance (S cur) (snd e); Some (fst e, h)) ins = Some ins' /\ map fst ins' = map fst ins /\
  (forall k, nget ins' k = match nget ins k with Some h => Some {| se_time := S cur; se_rows := se_rows h |} | None => None end) /\
  (forall k h, In (k, h) ins' -> se_time h = S cur).
Proof.
  intros H. destruct (mapO_values_some (session_advance (S cur)) ins) as [ins' E].
  { intros k h I. unfold session_advance. specialize (H k h I). apply Nat.leb_le in H. rewrite H. discriminate. }
  exists ins'. split; auto. destruct (mapO_values Nat.eq_dec _ _ _ E) as [A B]. split; auto. split.
  - intros k. rewrite B. destruct (nget ins k) as [h|] eqn:G; auto. apply mget_in in G. unfold session_advance. specialize (H k h G). apply Nat.leb_le in H. rewrite H. auto.
  - intros k h I. destruct (mapO_values_in _ _ _ E _ _ I) as (h' & _ & F). unfold session_advance in F. destruct (se_time h' <=? S cur); [|discriminate]. injection F as <-. auto.
Qed.
Lemma tick_program_ok w0 cur p : (forall k h, In (k, h) (in_inputs p) -> se_time h = cur) -> NoDup (map fst (in_inputs p)) ->
  exists ins, tick_program w0 cur p = Some (set_inputs ins p) /\ NoDup (map fst ins) /\
  (forall k, nget ins k = match nget (in_inputs p) k with Some h => Some {| se_time := S cur; se_rows := ticked_rows w0 cur p k (se_rows h) |} | None => None end) /\
  (forall k h, In (k, h) ins -> se_time h = S cur).
Proof.
  intros H U.
  assert (SAME : (forall k rows, ticked_rows w0 cur p k rows = rows) -> exists ins, (ins <- mapO (fun e => h <- session_advance (S cur) (snd e); Some (fst e, h)) (in_inputs p); Some (set_inputs ins p)) = Some (set_inputs ins p) /\ NoDup (map fst ins) /\
    (forall k, nget ins k = match nget (in_inputs p) k with Some h => Some {| se_time := S cur; se_rows := ticked_rows w0 cur p k (se_rows h) |} | None => None end) /\
    (forall k h, In (k, h) ins -> se_time h = S cur)).
  { intros T. destruct (advance_all cur (in_inputs p)) as (ins & -> & A & B & C); [intros k h I; rewrite (H _ _ I); lia|].
    exists ins. split; auto. split; [rewrite A; auto|]. split; auto. intros k. rewrite B. destruct (nget (in_inputs p) k); auto. rewrite T. auto. }
  unfold tick_program. destruct (in_origin p) eqn:O; try (apply SAME; intros; unfold ticked_rows; rewrite O; auto; fail).
  destruct w0; [|apply SAME; intros; unfold ticked_rows; rewrite O; auto].
  destruct (nget (in_inputs p) 0) as [h|] eqn:G.
  - pose proof (mget_in _ _ _ _ G) as GI. pose proof (H _ _ GI) as TE.
    rewrite session_update_some by lia. rewrite session_update_some by (simpl; lia). cbn [se_time se_rows].
    set (h' := {| se_time := se_time h; se_rows := _ |}).
    destruct (advance_all cur (nput (in_inputs p) 0 h')) as (ins & EQ & A & B & C).
    { intros k x [X|X]; [injection X as <- <-; simpl; lia|]. apply in_mdel in X as [X _]. rewrite (H _ _ X). lia. }
    exists ins. rewrite EQ. split; auto. split; [rewrite A; apply mput_unique; auto|]. split; auto.
    intros k. rewrite B. unfold ticked_rows. rewrite O. destruct (Nat.eqb_spec k 0) as [->|N].
    + rewrite mget_put_eq, G. cbn [andb h' se_rows]. rewrite <- app_assoc. auto.
    + rewrite mget_put_ne by auto. destruct (nget (in_inputs p) k); auto.
  - destruct (advance_all cur (in_inputs p)) as (ins & -> & A & B & C); [intros k h I; rewrite (H _ _ I); lia|].
    exists ins. split; auto. split; [rewrite A; auto|]. split; auto. intros k. rewrite B. destruct (nget (in_inputs p) k) eqn:G'; auto.
    unfold ticked_rows. rewrite O. destruct (Nat.eqb_spec k 0) as [->|N]; [congruence|auto].
Qed.
Lemma tick_ok sv wk : inv sv wk -> exists sv', tick sv wk = Some sv' /\ inv sv' wk /\ sv_epoch sv' = S (sv_epoch sv) /\ sv_importers sv' = sv_importers sv /\
  (forall t tr, published sv' t tr <-> exists tr0, published sv t tr0 /\ tr_dataflow tr = tr_dataflow tr0 /\ tr_since tr = Nat.max (tr_since tr0) (sv_epoch sv)) /\
  (forall n, match sget (sv_programs sv) n, sget (sv_programs sv') n with
    | Some p, Some p' => in_imports p' = in_imports p /\ in_exports p' = in_exports p /\ in_dataflow p' = in_dataflow p /\ in_origin p' = in_origin p /\
        forall k, nget (in_inputs p') k = match nget (in_inputs p) k with Some h => Some {| se_time := S (sv_epoch sv); se_rows := ticked_rows (wk_index wk =? 0) (sv_epoch sv) p k (se_rows h) |} | None => None end
    | None, None => True
    | _, _ => False
    end).
Proof.
  intros J. unfold tick.
  destruct (mapO_values_some (tick_program (wk_index wk =? 0) (sv_epoch sv)) (sv_programs sv)) as [ps E].
  { intros n p I. apply (mget_unique string_dec) in I; [|apply J]. destruct (tick_program_ok (wk_index wk =? 0) (sv_epoch sv) p) as (ins & -> & _); [intros; eapply i_time; eauto|eapply i_inputs; eauto|discriminate]. }
  rewrite E. eexists. split; [reflexivity|]. destruct (mapO_values string_dec _ _ _ E) as [A B].
  set (sv' := {| sv_traces := _; sv_programs := _; sv_importers := _; sv_epoch := _ |}).
  assert (PI : forall n p', installed sv' n p' -> exists p ins, installed sv n p /\ p' = set_inputs ins p /\ NoDup (map fst ins) /\ (forall k h, In (k, h) ins -> se_time h = S (sv_epoch sv)) /\
    forall k, nget ins k = match nget (in_inputs p) k with Some h => Some {| se_time := S (sv_epoch sv); se_rows := ticked_rows (wk_index wk =? 0) (sv_epoch sv) p k (se_rows h) |} | None => None end).
  { intros n p' I. unfold installed, sv' in I. cbn [sv_programs] in I. rewrite B in I. destruct (sget (sv_programs sv) n) as [p|] eqn:G; [|discriminate].
    destruct (tick_program_ok (wk_index wk =? 0) (sv_epoch sv) p) as (ins & F & U & K & T); [intros; eapply i_time; eauto|eapply i_inputs; eauto|].
    rewrite F in I. injection I as <-. exists p, ins. repeat split; auto. }
  assert (PP : forall t, sget (sv_traces sv') t = match sget (sv_traces sv) t with Some tr => Some (compact_trace (sv_epoch sv) tr) | None => None end).
  { intros t. unfold sv'. cbn [sv_traces]. replace (S (sv_epoch sv) - 1) with (sv_epoch sv) by lia. generalize (sv_traces sv). clear. induction l as [|[k v] l IH]; simpl; auto. destruct (string_dec k t); auto. }
  assert (PP' : forall t tr, published sv' t tr <-> exists tr0, published sv t tr0 /\ tr_dataflow tr = tr_dataflow tr0 /\ tr_since tr = Nat.max (tr_since tr0) (sv_epoch sv)).
  { intros t tr. unfold published. rewrite PP. destruct (sget (sv_traces sv) t) as [tr0|]; [|split; [discriminate|intros (? & ? & _); discriminate]].
    split; [injection 1 as <-; eauto|]. intros (x & X & E1 & E2). injection X as <-. destruct tr; simpl in *. unfold compact_trace. congruence. }
  split; [|split; [auto|split; [auto|split; [auto|]]]].
  - pose proof J as [J1 J2 J3 J4 J5 J6 J7 J8 J9 J10 J11 J12 J13]. constructor; auto.
    + unfold sv'. cbn [sv_traces]. rewrite map_map. auto.
    + unfold sv'. cbn [sv_programs]. rewrite A. auto.
    + intros n p' I. destruct (PI _ _ I) as (p & ins & I' & -> & _). exact (J5 _ _ I').
    + intros n p' m q' I1 I2 Q. destruct (PI _ _ I1) as (p & ins & I1' & -> & _). destruct (PI _ _ I2) as (q & ins2 & I2' & -> & _). exact (J6 _ _ _ _ I1' I2' Q).
    + intros t tr P. apply PP' in P as (tr0 & P & E1 & E2). destruct (J7 _ _ P) as [X Y]. rewrite E1. split; auto. rewrite E2. cbn [sv' sv_epoch]. lia.
    + intros n p' t I X. destruct (PI _ _ I) as (p & ins & I' & -> & _). destruct (J8 _ _ _ I' X) as (tr & P & Q).
      exists (compact_trace (sv_epoch sv) tr). split; [|auto]. unfold published. rewrite PP. unfold published in P. rewrite P. auto.
    + intros n p' t tr I P Q. destruct (PI _ _ I) as (p & ins & I' & -> & _). apply PP' in P as (tr0 & P & E1 & E2). cbn [set_inputs in_exports in_dataflow] in *. eapply J9; eauto. congruence.
    + intros id reads t r R X. destruct (J10 _ _ _ _ R X) as (tr & P & Q). exists (compact_trace (sv_epoch sv) tr). split; [|auto]. unfold published. rewrite PP. unfold published in P. rewrite P. auto.
    + intros n p' k h I X. destruct (PI _ _ I) as (p & ins & I' & -> & U & T & K). cbn [sv' sv_epoch]. eapply T. exact X.
    + intros n p' I. destruct (PI _ _ I) as (p & ins & I' & -> & U & T & K). exact U.
  - intros n. destruct (sget (sv_programs sv) n) as [p|] eqn:G.
    + destruct (sget (sv_programs sv') n) as [p'|] eqn:G'.
      * destruct (PI _ _ G') as (q & ins & I' & -> & U & T & K). unfold installed in I'. assert (q = p) by congruence. subst q. repeat split; auto.
      * unfold sv' in G'. cbn [sv_programs] in G'. rewrite B, G in G'. destruct (tick_program_ok (wk_index wk =? 0) (sv_epoch sv) p) as (ins & F & _); [intros; eapply i_time; eauto|eapply i_inputs; eauto|congruence].
    + destruct (sget (sv_programs sv') n) as [p'|] eqn:G'; auto. unfold sv' in G'. cbn [sv_programs] in G'. rewrite B, G in G'. discriminate.
Qed.

(** ** install *)
Lemma install_ok name root sv wk sv' wk' o : inv sv wk -> install name root sv wk = Some (sv', wk', o) ->
  inv sv' wk' /\
  (o = Refused -> grows sv wk sv' wk') /\
  (o = Done -> sget (sv_programs sv) name = None /\ exists sv1 wk1 reads by_pos, inv sv1 wk1 /\ grows sv wk sv1 wk1 /\ wants (sc_imports root) sv1 /\
    (forall t, In t (map ex_name (sc_exports root)) -> sget (sv_traces sv1) t = None) /\
    map fst reads = import_names (sc_imports root) /\ (forall t r, In (t, r) reads -> exists tr, published sv1 t tr /\ tr_dataflow tr = r) /\
    NoDup (map fst by_pos) /\ (forall k h, In (k, h) by_pos -> h = {| se_time := sv_epoch sv1; se_rows := [] |}) /\
    (forall k, In k (map fst by_pos) <-> exists im, In im (sc_imports root) /\ im_from im = SInput k) /\
    wk' = dataflow reads wk1 /\
    sv' = {| sv_traces := publish (wk_next wk1) (map ex_name (sc_exports root)) (sv_traces sv1);
             sv_programs := sput (sv_programs sv1) name {| in_inputs := by_pos; in_imports := import_names (sc_imports root); in_exports := map ex_name (sc_exports root); in_dataflow := wk_next wk1; in_origin := OProgram |};
             sv_importers := count_up (import_names (sc_imports root)) (sv_importers sv1);
             sv_epoch := sv_epoch sv1 |}).
Proof.
  intros J. unfold install. destruct (shas (sv_programs sv) name) eqn:HN.
  { injection 1 as <- <- <-. split; [auto|split; [intros _; apply grows_refl|discriminate]]. }
  apply mhas_false in HN. destruct (resolve_imports (sc_imports root) sv wk) as [[[sv1 wk1] o1]|] eqn:ER; [|discriminate].
  destruct (resolve_ok _ _ _ _ _ _ J ER) as (J1 & G1 & W1). destruct o1.
  2: { injection 1 as <- <- <-. split; [auto|split; [auto|discriminate]]. }
  destruct (existsb (shas (sv_traces sv1)) (map ex_name (sc_exports root))) eqn:EX.
  { injection 1 as <- <- <-. split; [auto|split; [auto|discriminate]]. }
  destruct (bind_imports (sv_traces sv1) (sc_imports root)) as [[ins reads]|] eqn:EB; [|discriminate].
  destruct (place_inputs (sv_epoch sv1) ins []) as [by_pos|] eqn:EP; [|discriminate].
  injection 1 as <- <- <-. split; [eapply install_body; eauto|split; [discriminate|]]. intros _. split; auto.
  destruct (bind_ok _ _ _ _ EB) as (B1 & B2 & B3 & B4).
  destruct (place_ok (sv_epoch sv1) ins [] B3 ltac:(intros ? ? []) ltac:(constructor)) as (m' & P1 & P2 & P3 & P4). rewrite EP in P1. injection P1 as <-.
  exists sv1, wk1, reads, by_pos. split; [auto|split; [auto|split; [auto|split]]].
  - intros t I. destruct (sget (sv_traces sv1) t) eqn:E; auto. assert (existsb (shas (sv_traces sv1)) (map ex_name (sc_exports root)) = true); [|congruence].
    apply existsb_exists. exists t. split; auto. apply mhas_spec. eauto.
  - split; [exact B1|split; [exact B2|split; [exact P2|split; [exact P3|split; [|split; reflexivity]]]]]. intros k. rewrite P4, B4. simpl. tauto.
Qed.
Lemma install_some name root sv wk : inv sv wk -> sensible (Install name root) -> install name root sv wk <> None.
Proof.
  intros J S. unfold install. destruct (shas (sv_programs sv) name); [discriminate|].
  destruct (resolve_imports (sc_imports root) sv wk) as [[[sv1 wk1] o1]|] eqn:ER.
  2: { exfalso. revert ER. apply resolve_some; auto. intros im t I F. specialize (S im I). rewrite F in S. exact S. }
  destruct (resolve_ok _ _ _ _ _ _ J ER) as (J1 & G1 & W1). destruct o1; [|discriminate]. specialize (W1 eq_refl).
  destruct (existsb _ _); [discriminate|].
  destruct (bind_some (sv_traces sv1) (sc_imports root)) as (ins & reads & EB); [exact W1| |].
  { intros im r I F. specialize (S im I). rewrite F in S. auto. }
  rewrite EB. destruct (bind_ok _ _ _ _ EB) as (B1 & B2 & B3 & B4).
  destruct (place_ok (sv_epoch sv1) ins [] B3 ltac:(intros ? ? []) ltac:(constructor)) as (m' & P1 & _). rewrite P1. discriminate.
Qed.

(** ** Every command *)
Lemma dispatch_inv c sv wk sv' wk' o : inv sv wk -> dispatch c sv wk = Some (sv', wk', o) -> inv sv' wk'.
Proof.
  intros J. destruct c as [name root|prog input key val time diff| |name|t key]; cbn [dispatch].
  - intros H. eapply install_ok in H; eauto. tauto.
  - destruct (wk_index wk =? 0); [|injection 1 as <- <- <-; auto].
    destruct (feed prog input key val time diff sv) as [[sv1 o1]|] eqn:E; [|discriminate]. injection 1 as <- <- <-. eapply feed_ok in E; eauto. tauto.
  - destruct (tick_ok sv wk J) as (sv1 & -> & J1 & _). injection 1 as <- <- <-. auto.
  - intros H. eapply drop_ok in H; eauto. tauto.
  - intros H. eapply peek_ok in H; eauto. tauto.
Qed.
Lemma inv_start index peers next : inv server_new {| wk_index := index; wk_peers := peers; wk_next := next; wk_running := [] |}.
Proof. constructor; simpl; try (constructor; fail); try discriminate; auto. Qed.
Lemma serve_inv cs : forall sv wk sv' wk', inv sv wk -> serve cs sv wk = Some (sv', wk') -> inv sv' wk'.
Proof.
  induction cs as [|c cs IH]; simpl; intros sv wk sv' wk' J; [injection 1 as <- <-; auto|].
  destruct (dispatch c sv wk) as [[[sv1 wk1] o]|] eqn:E; [|discriminate]. apply IH. eapply dispatch_inv; eauto.
Qed.
Lemma after_inv index peers cs sv wk : after index peers cs sv wk -> inv sv wk.
Proof. intros (next & H). eapply serve_inv; eauto. apply inv_start. Qed.
