From Coq Require Import String.
From Verif Require Export Proofs.ServerDataP.
From Coq Require Import Lia Permutation.

(** ** Workers stay in step *)
Definition alike_program (p q : Installed) : Prop :=
  in_imports p = in_imports q /\ in_exports p = in_exports q /\ in_dataflow p = in_dataflow q /\ in_origin p = in_origin q /\
  forall k, nget (in_inputs p) k = None <-> nget (in_inputs q) k = None.
Definition alike_option (x y : option Installed) : Prop :=
  match x, y with Some p, Some q => alike_program p q | None, None => True | _, _ => False end.
Definition alike (sv : Server) (wk : Worker) (sv' : Server) (wk' : Worker) : Prop :=
  sv_traces sv = sv_traces sv' /\ sv_importers sv = sv_importers sv' /\ sv_epoch sv = sv_epoch sv' /\
  wk_next wk = wk_next wk' /\ wk_running wk = wk_running wk' /\
  forall n, alike_option (sget (sv_programs sv) n) (sget (sv_programs sv') n).

Lemma alike_put ps qs n p q : (forall m, alike_option (sget ps m) (sget qs m)) -> alike_program p q ->
  forall m, alike_option (sget (sput ps n p) m) (sget (sput qs n q) m).
Proof.
  intros H E m. destruct (string_dec m n) as [->|N]; [rewrite !mget_put_eq; exact E|]. rewrite !mget_put_ne by auto. apply H.
Qed.
Lemma register_alike name input input' o sv wk sv1 wk1 sv' wk' sv1' wk1' : alike sv wk sv' wk' ->
  register_source name input o sv wk = Some (sv1, wk1) -> register_source name input' o sv' wk' = Some (sv1', wk1') -> alike sv1 wk1 sv1' wk1'.
Proof.
  intros (A1 & A2 & A3 & A4 & A5 & A6). unfold register_source. destruct (session_advance (sv_epoch sv) input); [|discriminate]. destruct (session_advance (sv_epoch sv') input'); [|discriminate].
  injection 1 as <- <-. injection 1 as <- <-. unfold alike. cbn [sv_traces sv_importers sv_epoch sv_programs dataflow wk_next wk_running]. rewrite A1, A2, A3, A4, A5.
  repeat (split; [reflexivity|]). apply alike_put; auto. repeat (split; [reflexivity|]). intros [|k]; cbn; split; congruence.
Qed.
Lemma resolve_alike imps : forall sv wk sv' wk' sv1 wk1 o sv1' wk1' o', inv sv wk -> inv sv' wk' -> alike sv wk sv' wk' ->
  resolve_imports imps sv wk = Some (sv1, wk1, o) -> resolve_imports imps sv' wk' = Some (sv1', wk1', o') -> alike sv1 wk1 sv1' wk1' /\ o = o'.
Proof.
  induction imps as [|im imps IH]; simpl; intros sv wk sv' wk' sv1 wk1 o sv1' wk1' o' J J' A.
  - injection 1 as <- <- <-. injection 1 as <- <- <-. auto.
  - destruct (im_from im) as [pr|n|t]; eauto.
    assert (ET : sv_traces sv' = sv_traces sv) by (destruct A; auto).
    rewrite ET. destruct (shas (sv_traces sv) (canonical_source_name t)) eqn:HH; eauto. apply mhas_false in HH.
    assert (HH' : sget (sv_traces sv') (canonical_source_name t) = None) by congruence.
    destruct (String.eqb_spec (canonical_source_name t) "clock") as [EC|NC].
    + unfold install_clock. destruct (clock_input sv wk) as (i1 & -> & Z1 & _). destruct (clock_input sv' wk') as (i2 & -> & Z2 & _). rewrite EC in HH, HH'.
      destruct (register_ok sv wk "clock" i1 OClock J HH (or_introl eq_refl) ltac:(discriminate) ltac:(lia)) as (a & b & E & J1 & _).
      destruct (register_ok sv' wk' "clock" i2 OClock J' HH' (or_introl eq_refl) ltac:(discriminate) ltac:(lia)) as (a' & b' & E' & J1' & _).
      rewrite E, E'. apply IH; auto. eapply register_alike; eauto.
    + destruct (recipe_parse (canonical_source_name t)) as [r|] eqn:ER; [|injection 1 as <- <- <-; injection 1 as <- <- <-; auto].
      unfold install_generated. destruct (shard (wk_index wk) _ r _ new_session) as [i1|] eqn:S1; [|discriminate].
      destruct (shard (wk_index wk') _ r _ new_session) as [i2|] eqn:S2; [|intros ?; discriminate].
      pose proof (shard_time _ _ _ _ _ _ S1 eq_refl) as Z1. pose proof (shard_time _ _ _ _ _ _ S2 eq_refl) as Z2.
      destruct (register_ok sv wk _ i1 OGenerated J HH (or_intror (ex_intro _ r ER)) ltac:(discriminate) ltac:(lia)) as (a & b & E & J1 & _).
      destruct (register_ok sv' wk' _ i2 OGenerated J' HH' (or_intror (ex_intro _ r ER)) ltac:(discriminate) ltac:(lia)) as (a' & b' & E' & J1' & _).
      rewrite E, E'. apply IH; auto. eapply register_alike; eauto.
Qed.
Lemma alike_refl_program p : alike_program p p.
Proof. unfold alike_program. intuition. Qed.
Lemma alike_fed p q input h : alike_program p q -> nget (in_inputs p) input <> None -> alike_program (set_inputs (nput (in_inputs p) input h) p) q.
Proof.
  intros (E1 & E2 & E3 & E4 & E5) G. unfold alike_program. cbn [set_inputs in_imports in_exports in_dataflow in_origin in_inputs]. split; [auto|]. split; [auto|]. split; [auto|]. split; [auto|].
  intros k. rewrite <- E5. destruct (Nat.eq_dec k input) as [->|N]; [rewrite mget_put_eq; split; [discriminate|contradiction]|rewrite mget_put_ne by auto; tauto].
Qed.
Lemma alike_sym sv wk sv' wk' : alike sv wk sv' wk' -> alike sv' wk' sv wk.
Proof.
  intros (A1 & A2 & A3 & A4 & A5 & A6). unfold alike. repeat (split; [auto|]). intros n. specialize (A6 n). unfold alike_option in *.
  destruct (sget (sv_programs sv) n), (sget (sv_programs sv') n); auto. destruct A6 as (E1 & E2 & E3 & E4 & E5). unfold alike_program. split; [auto|]. split; [auto|]. split; [auto|]. split; [auto|]. intros k. symmetry. auto.
Qed.
Lemma feed_alike prog input key val time diff sv wk sv1 o sv' wk' : inv sv wk -> alike sv wk sv' wk' ->
  feed prog input key val time diff sv = Some (sv1, o) -> alike sv1 wk sv' wk'.
Proof.
  intros J A H. destruct (feed_ok _ _ _ _ _ _ _ _ _ _ J H) as (_ & RF & _ & DN). destruct o; [|rewrite RF; auto].
  destruct (DN eq_refl) as (p & h & I & G & ->). destruct A as (A1 & A2 & A3 & A4 & A5 & A6). unfold alike. cbn [set_programs sv_traces sv_importers sv_epoch sv_programs].
  repeat (split; [auto|]). intros n. destruct (string_dec n (canonical_source_name prog)) as [->|N].
  - rewrite mget_put_eq. specialize (A6 (canonical_source_name prog)). unfold installed in I. rewrite I in A6. unfold alike_option in *. destruct (sget (sv_programs sv') _); [|auto].
    apply alike_fed; auto. congruence.
  - rewrite mget_put_ne by auto. auto.
Qed.
Lemma alike_trans sv1 wk1 sv2 wk2 sv3 wk3 : alike sv1 wk1 sv2 wk2 -> alike sv2 wk2 sv3 wk3 -> alike sv1 wk1 sv3 wk3.
Proof.
  intros (A1 & A2 & A3 & A4 & A5 & A6) (B1 & B2 & B3 & B4 & B5 & B6). unfold alike. repeat (split; [congruence|]). intros n. specialize (A6 n). specialize (B6 n). unfold alike_option in *.
  destruct (sget (sv_programs sv1) n), (sget (sv_programs sv2) n), (sget (sv_programs sv3) n); try tauto.
  destruct A6 as (E1 & E2 & E3 & E4 & E5), B6 as (F1 & F2 & F3 & F4 & F5). unfold alike_program. split; [congruence|]. split; [congruence|]. split; [congruence|]. split; [congruence|]. intros k. rewrite E5. auto.
Qed.
Lemma dispatch_alike c sv wk sv' wk' sv1 wk1 o sv1' wk1' o' : inv sv wk -> inv sv' wk' -> alike sv wk sv' wk' ->
  dispatch c sv wk = Some (sv1, wk1, o) -> dispatch c sv' wk' = Some (sv1', wk1', o') ->
  alike sv1 wk1 sv1' wk1' /\ ((forall a b d e f g, c <> Feed a b d e f g) -> o = o').
Proof.
  intros J J' A. destruct c as [name root|prog input key val time diff| |name|t key]; cbn [dispatch].
  - unfold install. assert (HN : shas (sv_programs sv) name = shas (sv_programs sv') name).
    { destruct A as (_ & _ & _ & _ & _ & A6). specialize (A6 name). unfold mhas, alike_option in *. destruct (sget (sv_programs sv) name), (sget (sv_programs sv') name); tauto. }
    rewrite HN. destruct (shas (sv_programs sv') name); [injection 1 as <- <- <-; injection 1 as <- <- <-; auto|].
    destruct (resolve_imports (sc_imports root) sv wk) as [[[a b] x]|] eqn:E; [|discriminate].
    destruct (resolve_imports (sc_imports root) sv' wk') as [[[a' b'] x']|] eqn:E'; [|intros ?; discriminate].
    destruct (resolve_alike _ _ _ _ _ _ _ _ _ _ _ J J' A E E') as [(A1 & A2 & A3 & A4 & A5 & A6) ->].
    destruct x'; [|injection 1 as <- <- <-; injection 1 as <- <- <-; repeat split; auto].
    rewrite <- A1. destruct (existsb _ _); [injection 1 as <- <- <-; injection 1 as <- <- <-; repeat split; auto|].
    destruct (bind_imports (sv_traces a) (sc_imports root)) as [[ins reads]|]; [|discriminate]. rewrite <- A3.
    destruct (place_inputs (sv_epoch a) ins []) as [by_pos|]; [|discriminate].
    injection 1 as <- <- <-. injection 1 as <- <- <-. split; auto. unfold alike. cbn [sv_traces sv_importers sv_epoch sv_programs dataflow wk_next wk_running]. rewrite A2, A4, A5.
    repeat (split; [reflexivity|]). apply alike_put; auto. apply alike_refl_program.
  - intros H1 H2. split; [|intros N; destruct (N prog input key val time diff eq_refl)].
    assert (B : alike sv1 wk1 sv wk).
    { destruct (wk_index wk =? 0); [|injection H1 as <- <- <-; unfold alike; repeat (split; [auto|]); intros n; unfold alike_option; destruct (sget _ n); auto; apply alike_refl_program].
      destruct (feed prog input key val time diff sv) as [[s x]|] eqn:F; [|discriminate]. injection H1 as <- <- <-. eapply feed_alike; eauto.
      unfold alike; repeat (split; [auto|]); intros n; unfold alike_option; destruct (sget _ n); auto; apply alike_refl_program. }
    assert (B' : alike sv1' wk1' sv' wk').
    { destruct (wk_index wk' =? 0); [|injection H2 as <- <- <-; unfold alike; repeat (split; [auto|]); intros n; unfold alike_option; destruct (sget _ n); auto; apply alike_refl_program].
      destruct (feed prog input key val time diff sv') as [[s x]|] eqn:F; [|discriminate]. injection H2 as <- <- <-. eapply feed_alike; eauto.
      unfold alike; repeat (split; [auto|]); intros n; unfold alike_option; destruct (sget _ n); auto; apply alike_refl_program. }
    eapply alike_trans; [exact B|]. eapply alike_trans; [exact A|]. apply alike_sym. auto.
  - destruct A as (A1 & A2 & A3 & A4 & A5 & A6).
    destruct (tick_ok sv wk J) as (s & E & _ & EP & EI & _ & PS). destruct (tick_ok sv' wk' J') as (s' & E' & _ & EP' & EI' & _ & PS').
    assert (ET : sv_traces s = sv_traces s').
    { unfold tick in E, E'. destruct (mapO _ (sv_programs sv)); [|discriminate]. destruct (mapO _ (sv_programs sv')); [|discriminate]. injection E as <-. injection E' as <-. cbn [sv_traces]. rewrite A1, A3. auto. }
    rewrite E, E'. injection 1 as <- <- <-. injection 1 as <- <- <-. split; auto. unfold alike. rewrite EP, EP', EI, EI', A3, A2. repeat (split; [auto|]).
    intros n. specialize (PS n). specialize (PS' n). specialize (A6 n). unfold alike_option in *.
    destruct (sget (sv_programs sv) n) as [p|], (sget (sv_programs sv') n) as [p'|], (sget (sv_programs s) n) as [q|], (sget (sv_programs s') n) as [q'|]; try tauto.
    destruct A6 as (X1 & X2 & X3 & X4 & X5), PS as (Y1 & Y2 & Y3 & Y4 & Y5), PS' as (Z1 & Z2 & Z3 & Z4 & Z5). unfold alike_program. split; [congruence|]. split; [congruence|]. split; [congruence|]. split; [congruence|].
    intros k. rewrite Y5, Z5. specialize (X5 k). destruct (nget (in_inputs p) k), (nget (in_inputs p') k); intuition congruence.
  - unfold drop_program. destruct A as (A1 & A2 & A3 & A4 & A5 & A6). set (n0 := canonical_source_name name) in *. pose proof (A6 n0) as A60. unfold alike_option in A60.
    destruct (sget (sv_programs sv) n0) as [p|], (sget (sv_programs sv') n0) as [q|]; try tauto.
    2: { injection 1 as <- <- <-. injection 1 as <- <- <-. repeat split; auto. }
    destruct A60 as (X1 & X2 & X3 & X4 & X5). rewrite X1, X2, X3, A1, A2, A3. destruct (existsb _ _).
    { injection 1 as <- <- <-. injection 1 as <- <- <-. repeat split; auto. }
    injection 1 as <- <- <-. injection 1 as <- <- <-. split; auto. unfold alike. cbn [sv_traces sv_importers sv_epoch sv_programs drop_dataflow wk_next wk_running]. rewrite A4, A5. repeat (split; [reflexivity|]).
    intros n. destruct (string_dec n n0) as [->|N]; [rewrite !mget_del_eq; exact I|]. rewrite !mget_del_ne by auto. auto.
  - unfold peek. destruct A as (A1 & A2 & A3 & A4 & A5 & A6). rewrite A1. destruct (sget (sv_traces sv') (canonical_source_name t)).
    + injection 1 as <- <- <-. injection 1 as <- <- <-. split; auto. unfold alike. cbn [drop_dataflow dataflow wk_next wk_running]. rewrite A4, A5. repeat (split; [auto|]). auto.
    + injection 1 as <- <- <-. injection 1 as <- <- <-. repeat split; auto.
Qed.
Lemma serve_alike cs : forall sv wk sv' wk' sv1 wk1 sv1' wk1', inv sv wk -> inv sv' wk' -> alike sv wk sv' wk' ->
  serve cs sv wk = Some (sv1, wk1) -> serve cs sv' wk' = Some (sv1', wk1') -> alike sv1 wk1 sv1' wk1'.
Proof.
  induction cs as [|c cs IH]; simpl; intros sv wk sv' wk' sv1 wk1 sv1' wk1' J J' A.
  - injection 1 as <- <-. injection 1 as <- <-. auto.
  - destruct (dispatch c sv wk) as [[[a b] o]|] eqn:E; [|discriminate]. destruct (dispatch c sv' wk') as [[[a' b'] o']|] eqn:E'; [|intros ?; discriminate].
    apply (IH a b a' b'); [exact (dispatch_inv _ _ _ _ _ _ J E)|exact (dispatch_inv _ _ _ _ _ _ J' E')|]. exact (proj1 (dispatch_alike _ _ _ _ _ _ _ _ _ _ _ J J' A E E')).
Qed.

(** ** What becomes of imports *)
Lemma register_published name input o sv wk sv' wk' : register_source name input o sv wk = Some (sv', wk') ->
  forall t, (exists tr, published sv' t tr) <-> t = name \/ exists tr, published sv t tr.
Proof.
  unfold register_source. destruct (session_advance _ _); [|discriminate]. injection 1 as <- <-. intros t. unfold published. cbn [sv_traces].
  destruct (string_dec t name) as [->|N].
  - rewrite mget_put_eq. split; [auto|]. intros _. eexists. reflexivity.
  - rewrite mget_put_ne by auto. split; [auto|]. intros [E|E]; [contradiction|auto].
Qed.
Definition available (sv : Server) (t : string) : Prop := (exists tr, published sv t tr) \/ own_name t.
Lemma resolve_fate imps : forall sv wk sv' wk' o, inv sv wk -> resolve_imports imps sv wk = Some (sv', wk', o) ->
  (o = Done <-> forall t, In t (import_names imps) -> available sv t) /\
  (forall t, (exists tr, published sv' t tr) -> (exists tr, published sv t tr) \/ In t (import_names imps)).
Proof.
  induction imps as [|im imps IH]; intros sv wk sv' wk' o J.
  - simpl. injection 1 as <- <- <-. split; [split; [intros _ ? []|auto]|auto].
  - assert (NEXT : forall name input o' sv1 wk1, own_name name -> inv sv1 wk1 -> register_source name input o' sv wk = Some (sv1, wk1) -> resolve_imports imps sv1 wk1 = Some (sv', wk', o) ->
      (o = Done <-> forall t, In t (name :: import_names imps) -> available sv t) /\
      (forall t, (exists tr, published sv' t tr) -> (exists tr, published sv t tr) \/ In t (name :: import_names imps))).
    { intros name input o' sv1 wk1 ON J1 R H. pose proof (register_published _ _ _ _ _ _ _ R) as P. destruct (IH _ _ _ _ _ J1 H) as [A B]. split.
      - rewrite A. split; intros F t.
        + intros [<-|I]; [right; auto|]. destruct (F t I) as [Q|Q]; [|right; auto]. apply P in Q as [->|Q]; [right; auto|left; auto].
        + intros I. destruct (F t (or_intror I)) as [Q|Q]; [left; apply P; auto|right; auto].
      - intros t Q. apply B in Q as [Q|Q]; [|right; right; auto]. apply P in Q as [->|Q]; [right; left; auto|left; auto]. }
    unfold import_names in *. cbn [resolve_imports flat_map]. destruct (im_from im) as [pr|n|t0]; cbn [app]; [eauto|eauto|].
    destruct (shas (sv_traces sv) (canonical_source_name t0)) eqn:HH.
    + apply mhas_spec in HH as [tr HH]. intros H. destruct (IH _ _ _ _ _ J H) as [A B]. split.
      * rewrite A. split; intros F t; [intros [<-|I]; [left; exists tr; exact HH|auto]|intros I; apply F; right; auto].
      * intros t Q. apply B in Q as [Q|Q]; [left; auto|right; right; auto].
    + apply mhas_false in HH. destruct (String.eqb_spec (canonical_source_name t0) "clock") as [EC|NC].
      * unfold install_clock. destruct (clock_input sv wk) as (i & -> & Z & _). rewrite EC in *.
        destruct (register_ok sv wk "clock" i OClock J HH (or_introl eq_refl) ltac:(discriminate) ltac:(lia)) as (a & b & E & J1 & _). rewrite E. intros H.
        exact (NEXT _ _ _ _ _ (or_introl eq_refl) J1 E H).
      * destruct (recipe_parse (canonical_source_name t0)) as [r|] eqn:ER.
        -- unfold install_generated. destruct (shard _ _ r _ new_session) as [i|] eqn:S1; [|discriminate]. pose proof (shard_time _ _ _ _ _ _ S1 eq_refl) as Z.
           destruct (register_ok sv wk _ i OGenerated J HH (or_intror (ex_intro _ r ER)) ltac:(discriminate) ltac:(lia)) as (a & b & E & J1 & _). rewrite E. intros H.
           exact (NEXT _ _ _ _ _ (or_intror (ex_intro _ r ER)) J1 E H).
        -- injection 1 as <- <- <-. split; [|auto]. split; [discriminate|]. intros F. destruct (F _ (or_introl eq_refl)) as [[tr Q]|[Q|[r Q]]]; [|contradiction|congruence].
           unfold published in Q. congruence.
Qed.
Lemma install_fate name root sv wk sv' wk' o : inv sv wk -> install name root sv wk = Some (sv', wk', o) ->
  (o = Done <-> (forall p, ~ installed sv name p) /\ (forall t, In t (import_names (sc_imports root)) -> available sv t) /\
    forall t, In t (map ex_name (sc_exports root)) -> (forall tr, ~ published sv t tr) /\ ~ In t (import_names (sc_imports root))).
Proof.
  intros J. unfold install. destruct (shas (sv_programs sv) name) eqn:HN.
  { injection 1 as <- <- <-. apply mhas_spec in HN as [p HN]. split; [discriminate|]. intros (F & _). destruct (F p HN). }
  apply mhas_false in HN. destruct (resolve_imports (sc_imports root) sv wk) as [[[a b] x]|] eqn:E; [|discriminate].
  destruct (resolve_fate _ _ _ _ _ _ J E) as [A B]. destruct (resolve_ok _ _ _ _ _ _ J E) as (_ & G & W). destruct x.
  2: { injection 1 as <- <- <-. split; [discriminate|]. intros (_ & F & _). apply A in F. discriminate. }
  assert (NP : forall p, ~ installed sv name p) by (intros p I; unfold installed in I; congruence).
  destruct (existsb (shas (sv_traces a)) (map ex_name (sc_exports root))) eqn:X.
  { injection 1 as <- <- <-. split; [discriminate|]. intros (_ & _ & F). apply existsb_exists in X as (t & I & X). apply mhas_spec in X as [tr X]. destruct (F t I) as [F1 F2].
    destruct (B t (ex_intro _ tr X)) as [[tr' Q]|Q]; [destruct (F1 tr' Q)|contradiction]. }
  destruct (bind_imports _ _) as [[ins reads]|]; [|discriminate]. destruct (place_inputs _ _ _); [|discriminate]. injection 1 as _ _ <-. split; [intros _|auto].
  split; [auto|]. split; [apply A; auto|]. intros t I.
  assert (NT : sget (sv_traces a) t = None).
  { apply mhas_false. destruct (shas (sv_traces a) t) eqn:Q; auto. assert (existsb (shas (sv_traces a)) (map ex_name (sc_exports root)) = true) by (apply existsb_exists; eauto). congruence. }
  split.
  - intros tr P. destruct G as (_ & _ & _ & _ & G5 & _). apply G5 in P. unfold published in P. congruence.
  - intros I2. unfold import_names in I2. apply in_flat_map in I2 as (im & I2 & I3). destruct (im_from im) as [| |t1] eqn:F; [destruct I3|destruct I3|]. destruct I3 as [I3|I3]; [|destruct I3]. subst t.
    destruct (W eq_refl im t1 I2 F) as [tr Q]. unfold published in Q. congruence.
Qed.
