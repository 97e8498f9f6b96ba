From Coq Require Import String.
From Verif Require Export Proofs.ServerP.
From Coq Require Import Lia Permutation.

Notation occ := (count_occ string_dec).
Definition uses_in (m : list (nat * list (string * nat))) (t : string) : nat := occ (flat_map (fun e => map fst (snd e)) m) t.

Record inv (sv : Server) (wk : Worker) : Prop := {
  i_traces : NoDup (map fst (sv_traces sv));
  i_programs : NoDup (map fst (sv_programs sv));
  i_running : NoDup (map fst (wk_running wk));
  i_next : forall id reads, running wk id reads -> id < wk_next wk;
  i_prog : forall n p, installed sv n p -> exists reads, running wk (in_dataflow p) reads /\ map fst reads = in_imports p;
  i_apart : forall n p m q, installed sv n p -> installed sv m q -> in_dataflow p = in_dataflow q -> n = m;
  i_trace : forall t tr, published sv t tr -> (exists reads, running wk (tr_dataflow tr) reads) /\ tr_since tr <= sv_epoch sv - 1;
  i_exports : forall n p t, installed sv n p -> In t (in_exports p) -> exists tr, published sv t tr /\ tr_dataflow tr = in_dataflow p;
  i_owner : forall n p t tr, installed sv n p -> published sv t tr -> tr_dataflow tr = in_dataflow p -> In t (in_exports p);
  i_reads : forall id reads t r, running wk id reads -> In (t, r) reads -> exists tr, published sv t tr /\ tr_dataflow tr = r;
  i_count : forall t, count_of (sv_importers sv) t = uses_in (wk_running wk) t;
  i_time : forall n p k h, installed sv n p -> In (k, h) (in_inputs p) -> se_time h = sv_epoch sv;
  i_inputs : forall n p, installed sv n p -> NoDup (map fst (in_inputs p))
}.

Lemma occ_app (a b : list string) t : occ (a ++ b) t = occ a t + occ b t.
Proof. apply count_occ_app. Qed.
Lemma uses_del (m : list (nat * list (string * nat))) id reads t : NoDup (map fst m) -> nget m id = Some reads ->
  uses_in m t = uses_in (ndel m id) t + occ (map fst reads) t.
Proof.
  unfold uses_in. induction m as [|[k v] m IH]; simpl; [discriminate|]. inversion 1 as [|? ? N1 N2]; subst.
  destruct (Nat.eq_dec k id) as [->|NE].
  - injection 1 as ->. rewrite occ_app. rewrite (mdel_none Nat.eq_dec m id).
    + lia.
    + apply mget_none. auto.
  - intros G. simpl. rewrite !occ_app. rewrite (IH N2 G). lia.
Qed.
Lemma uses_put (m : list (nat * list (string * nat))) id reads t : nget m id = None ->
  uses_in (nput m id reads) t = uses_in m t + occ (map fst reads) t.
Proof. intros G. unfold uses_in, mput. simpl. rewrite occ_app, (mdel_none Nat.eq_dec m id G). lia. Qed.
Lemma uses_in_use wk t : NoDup (map fst (wk_running wk)) -> (uses_in (wk_running wk) t > 0 <-> in_use wk t).
Proof.
  intros U. unfold uses_in. rewrite <- count_occ_In, in_flat_map. unfold in_use, running. split.
  - intros ([id reads] & I & J). apply in_map_iff in J as ([t' r] & <- & J). exists id, reads, r. split; auto. apply mget_unique; auto.
  - intros (id & reads & r & G & J). exists (id, reads). split; [apply mget_in with (keq := Nat.eq_dec); auto|].
    apply in_map_iff. exists (t, r). auto.
Qed.

Lemma count_of_put m t c u : count_of (sput m t c) u = if string_dec t u then c else count_of m u.
Proof.
  unfold count_of. destruct (string_dec t u) as [->|N]; [rewrite mget_put_eq; auto|]. rewrite mget_put_ne; auto.
Qed.
Lemma count_up_spec names : forall m t, count_of (count_up names m) t = count_of m t + occ names t.
Proof.
  induction names as [|x names IH]; intros m t; simpl; [lia|]. unfold count_up in *. simpl. rewrite IH, count_of_put.
  destruct (string_dec x t) as [->|]; lia.
Qed.
Lemma count_down_spec names : forall m t, count_of (count_down names m) t = count_of m t - occ names t.
Proof.
  induction names as [|x names IH]; intros m t; simpl; [lia|]. unfold count_down in *. simpl. rewrite IH.
  destruct (sget m x) as [c|] eqn:E.
  - rewrite count_of_put. destruct (string_dec x t) as [->|]; [|lia]. unfold count_of. rewrite E. lia.
  - destruct (string_dec x t) as [->|]; [|lia]. unfold count_of. rewrite E. lia.
Qed.
Lemma publish_spec id names : forall m t,
  sget (publish id names m) t = if in_dec string_dec t names then Some {| tr_dataflow := id; tr_since := 0 |} else sget m t.
Proof.
  unfold publish. induction names as [|x names IH]; intros m t; [auto|].
  change (fold_left _ (x :: names) m) with (fold_left (fun m x => sput m x {| tr_dataflow := id; tr_since := 0 |}) names (sput m x {| tr_dataflow := id; tr_since := 0 |})).
  rewrite IH. destruct (in_dec string_dec t names) as [I|N]; destruct (in_dec string_dec t (x :: names)) as [I'|N']; auto.
  - destruct N'. right. auto.
  - destruct I' as [->|I']; [rewrite mget_put_eq; auto|contradiction].
  - rewrite mget_put_ne; auto. intros ->. apply N'. left. auto.
Qed.
Lemma publish_unique id names : forall m, NoDup (map fst m) -> NoDup (map fst (publish id names m)).
Proof. unfold publish. induction names as [|x names IH]; intros m U; simpl; auto. apply IH. apply mput_unique. auto. Qed.
Lemma delete_all_spec (names : list string) : forall (m : list (string * Trace)) t,
  sget (fold_left sdel names m) t = if in_dec string_dec t names then None else sget m t.
Proof.
  induction names as [|x names IH]; intros m t; [auto|]. simpl fold_left. rewrite IH.
  destruct (in_dec string_dec t names) as [I|N]; destruct (in_dec string_dec t (x :: names)) as [I'|N']; auto.
  - destruct N'. right. auto.
  - destruct I' as [->|I']; [apply mget_del_eq|contradiction].
  - apply mget_del_ne. intros ->. apply N'. left. auto.
Qed.
Lemma delete_all_unique (names : list string) : forall (m : list (string * Trace)), NoDup (map fst m) -> NoDup (map fst (fold_left sdel names m)).
Proof. induction names as [|x names IH]; intros m U; simpl; auto. apply IH. apply mdel_unique. auto. Qed.

(** [grows]: nothing but new sources of the server's own. *)
Definition grows (sv : Server) (wk : Worker) (sv' : Server) (wk' : Worker) : Prop :=
  sv_epoch sv' = sv_epoch sv /\ sv_importers sv' = sv_importers sv /\
  wk_index wk' = wk_index wk /\ wk_peers wk' = wk_peers wk /\
  (forall t tr, published sv t tr -> published sv' t tr) /\
  (forall id reads, running wk id reads -> running wk' id reads) /\
  (forall n p, installed sv n p -> installed sv' n p \/ exists p', installed sv' n p' /\ in_origin p' <> OProgram /\ in_dataflow p' >= wk_next wk) /\
  (forall n p, installed sv' n p -> installed sv n p \/ (in_origin p <> OProgram /\ in_exports p = [n] /\ own_name n /\ sget (sv_traces sv) n = None)) /\
  (forall t tr, published sv' t tr -> published sv t tr \/ (sget (sv_traces sv) t = None /\ exists p, installed sv' t p /\ in_origin p <> OProgram)) /\
  wk_next wk <= wk_next wk'.
Lemma grows_refl sv wk : grows sv wk sv wk.
Proof. repeat split; auto. Qed.
Lemma grows_trans sv wk sv1 wk1 sv2 wk2 : grows sv wk sv1 wk1 -> grows sv1 wk1 sv2 wk2 -> grows sv wk sv2 wk2.
Proof.
  intros (A1 & A2 & A3 & A4 & A5 & A6 & A7 & A8 & A9 & A10) (B1 & B2 & B3 & B4 & B5 & B6 & B7 & B8 & B9 & B10). repeat split; try congruence; auto; try lia.
  - intros n p I. apply A7 in I as [I|(p' & I & O & L)].
    + apply B7 in I as [I|(q & I & O & L)]; auto. right. exists q. repeat split; auto. lia.
    + right. apply B7 in I as [I|(q & I & O' & L')]; eauto. exists q. repeat split; auto. lia.
  - intros n p I. apply B8 in I as [I|(O & X & Y & N)].
    + apply A8 in I. auto.
    + right. repeat split; auto. destruct (sget (sv_traces sv) n) as [tr|] eqn:E; auto. apply A5 in E. unfold published in E. congruence.
  - intros t tr P. apply B9 in P as [P|(N & p & I & O)].
    + apply A9 in P as [P|(N & p & I & O)]; auto. right. split; auto. apply B7 in I as [I|(q & I & O' & _)]; eauto.
    + right. split; eauto. destruct (sget (sv_traces sv) t) as [x|] eqn:E; auto. apply A5 in E. unfold published in E. congruence.
Qed.

Lemma next_fresh sv wk (Hinv : inv sv wk) : nget (wk_running wk) (wk_next wk) = None.
Proof.
  destruct (nget (wk_running wk) (wk_next wk)) as [r|] eqn:E; auto. pose proof (i_next _ _ Hinv _ _ E). lia.
Qed.
Lemma running_new sv wk (Hinv : inv sv wk) reads id rs : running (dataflow reads wk) id rs <-> (id = wk_next wk /\ rs = reads) \/ running wk id rs.
Proof.
  unfold running. cbn [dataflow wk_running]. destruct (Nat.eq_dec id (wk_next wk)) as [->|N].
  - rewrite mget_put_eq, (next_fresh sv wk Hinv). split; [injection 1 as ->; auto|intros [[_ ->]|]; [auto|discriminate]].
  - rewrite mget_put_ne by auto. split; auto. intros [[]|]; [contradiction|auto].
Qed.

Section Register.
Variables (sv : Server) (wk : Worker) (name : string) (input : Session) (o : Origin).
Hypothesis Hinv : inv sv wk.
Hypothesis Hname : sget (sv_traces sv) name = None.
Hypothesis Hown : own_name name.
Hypothesis Ho : o <> OProgram.
Hypothesis Hinput : se_time input <= sv_epoch sv.

Lemma register_ok : exists sv' wk', register_source name input o sv wk = Some (sv', wk') /\ inv sv' wk' /\ grows sv wk sv' wk' /\
  published sv' name {| tr_dataflow := wk_next wk; tr_since := 0 |} /\
  installed sv' name {| in_inputs := [(0%nat, {| se_time := sv_epoch sv; se_rows := se_rows input |})]; in_imports := []; in_exports := [name]; in_dataflow := wk_next wk; in_origin := o |} /\
  (forall n, n <> name -> sget (sv_programs sv') n = sget (sv_programs sv) n).
Proof using Hinv Hname Hown Ho Hinput.
  unfold register_source, session_advance. destruct (Nat.leb_spec (se_time input) (sv_epoch sv)); [|lia].
  eexists _, _. split; [reflexivity|].
  set (p0 := {| in_inputs := _; in_imports := []; in_exports := [name]; in_dataflow := wk_next wk; in_origin := o |}).
  set (sv' := {| sv_traces := _; sv_programs := _; sv_importers := _; sv_epoch := _ |}).
  assert (PI : forall n p, installed sv' n p <-> (n = name /\ p = p0) \/ (n <> name /\ installed sv n p)).
  { intros n p. unfold installed, sv'. cbn [sv_programs]. destruct (string_dec n name) as [->|N].
    - rewrite mget_put_eq. split; [injection 1 as ->; auto|intros [[_ ->]|[]]; [auto|contradiction]].
    - rewrite mget_put_ne by auto. split; auto. intros [[]|[]]; [contradiction|auto]. }
  assert (PP : forall t tr, published sv' t tr <-> (t = name /\ tr = {| tr_dataflow := wk_next wk; tr_since := 0 |}) \/ (t <> name /\ published sv t tr)).
  { intros t tr. unfold published, sv'. cbn [sv_traces]. destruct (string_dec t name) as [->|N].
    - rewrite mget_put_eq. split; [injection 1 as ->; auto|intros [[_ ->]|[]]; [auto|contradiction]].
    - rewrite mget_put_ne by auto. split; auto. intros [[]|[]]; [contradiction|auto]. }
  pose proof (running_new sv wk Hinv []) as PR. pose proof (next_fresh sv wk Hinv) as NF.
  assert (PN : forall t tr, published sv t tr -> t <> name) by (intros t tr P ->; unfold published in P; congruence).
  destruct Hinv as [J1 J2 J3 J4 J5 J6 J7 J8 J9 J10 J11 J12 J13].
  split; [|split; [|split; [|split]]].
  - constructor.
    + apply mput_unique. auto.
    + apply mput_unique. auto.
    + apply mput_unique. auto.
    + intros id reads R. apply PR in R as [[-> ->]|R]; [simpl; lia|]. apply J4 in R. simpl. lia.
    + intros n p I. apply PI in I as [[-> ->]|[N I]].
      * exists []. split; auto. apply PR. auto.
      * apply J5 in I as (reads & R & E). exists reads. split; auto. apply PR. auto.
    + intros n p m q I1 I2 E. apply PI in I1 as [[-> ->]|[N1 I1]]; apply PI in I2 as [[-> ->]|[N2 I2]]; auto.
      * destruct (J5 _ _ I2) as (reads & R & _). apply J4 in R. simpl in E. lia.
      * destruct (J5 _ _ I1) as (reads & R & _). apply J4 in R. simpl in E. lia.
      * eauto.
    + intros t tr P. apply PP in P as [[-> ->]|[N P]].
      * split; [exists []; apply PR; auto|simpl; lia].
      * apply J7 in P as ((reads & R) & L). split; [exists reads; apply PR; auto|auto].
    + intros n p t I X. apply PI in I as [[-> ->]|[N I]].
      * destruct X as [<-|[]]. eexists. split; [apply PP; left; eauto|auto].
      * destruct (J8 _ _ _ I X) as (tr & P & E). exists tr. split; auto. apply PP. right. eauto.
    + intros n p t tr I P E. apply PI in I as [[-> ->]|[N I]]; apply PP in P as [[-> ->]|[N' P]].
      * left. auto.
      * exfalso. apply J7 in P as ((reads & R) & _). apply J4 in R. simpl in E. lia.
      * exfalso. destruct (J5 _ _ I) as (reads & R & _). apply J4 in R. simpl in E. lia.
      * eauto.
    + intros id reads t r R X. apply PR in R as [[-> ->]|R]; [destruct X|].
      destruct (J10 _ _ _ _ R X) as (tr & P & E). exists tr. split; auto. apply PP. right. eauto.
    + intros t. unfold sv'. cbn [sv_importers dataflow wk_running]. rewrite J11, uses_put by exact NF. simpl. lia.
    + intros n p k h I X. apply PI in I as [[-> ->]|[N I]].
      * destruct X as [E|[]]. injection E as <- <-. auto.
      * cbn [sv' sv_epoch]. eauto.
    + intros n p I. apply PI in I as [[-> ->]|[N I]]; [|eauto]. simpl. constructor; [simpl; tauto|constructor].
  - repeat split; auto.
    + intros t tr P. apply PP. right. eauto.
    + intros id reads R. apply PR. auto.
    + intros n p I. destruct (string_dec n name) as [->|N].
      * right. exists p0. split; [apply PI; auto|split; auto].
      * left. apply PI. auto.
    + intros n p I. apply PI in I as [[-> ->]|[N I]]; auto.
    + intros t tr P. apply PP in P as [[-> ->]|[N P]]; auto. right. split; auto. exists p0. split; auto. apply PI. auto.
    + simpl. lia.
  - apply PP. auto.
  - apply PI. auto.
  - intros n N. unfold sv'. cbn [sv_programs]. apply mget_put_ne. auto.
Qed.
End Register.

Lemma session_update_some r t d s : se_time s <= t -> session_update r t d s = Some {| se_time := se_time s; se_rows := se_rows s ++ [(r, t, d)] |}.
Proof. intros L. unfold session_update. apply Nat.leb_le in L. rewrite L. auto. Qed.
Lemma shard_time index peers r : forall es s s', shard index peers r es s = Some s' -> se_time s = 0 -> se_time s' = 0.
Proof.
  induction es as [|e es IH]; simpl; intros s s'; [injection 1 as <-; auto|].
  destruct (e mod peers =? index); [|eauto]. destruct (recipe_row r e); [|discriminate]. intros H Z.
  rewrite session_update_some in H by lia. eapply IH; eauto.
Qed.
Lemma shard_some index peers r : (forall e, In e (seq 0 (rows_len r)) -> recipe_row r e <> None) ->
  forall es s, incl es (seq 0 (rows_len r)) -> se_time s = 0 -> exists s', shard index peers r es s = Some s'.
Proof.
  intros H. induction es as [|e es IH]; simpl; intros s IN Z; eauto.
  assert (IN' : incl es (seq 0 (rows_len r))) by (intros x X; apply IN; right; auto).
  destruct (e mod peers =? index); [|eauto].
  destruct (recipe_row r e) eqn:E; [|destruct (H e (IN e (or_introl eq_refl)) E)].
  rewrite session_update_some by lia. apply IH; auto.
Qed.
Lemma mapO_all {A B} (f : A -> option B) l : (forall x, In x l -> f x <> None) -> exists ys, mapO f l = Some ys.
Proof.
  induction l as [|a l IH]; simpl; intros H; eauto. destruct (f a) eqn:E; [|destruct (H a (or_introl eq_refl) E)].
  destruct IH as [ys ->]; eauto.
Qed.
Lemma drawable_rows r : drawable r -> forall e, In e (seq 0 (rows_len r)) -> recipe_row r e <> None.
Proof.
  destruct r as [nodes edges arity seed|n]; simpl; intros D e I; [|discriminate].
  unfold gen_row_seeded. destruct D as [D|[-> | ->]].
  - destruct (mapO_all (fun col => if (nodes =? 0)%N then None else Some (VInt (as_i64 (hash_u64 (as_u64 (as_u64 (Z.of_N (N.of_nat e) * 31 + Z.of_N seed * 0x9e3779b97f4a7c15) + Z.of_nat col)) mod Z.of_N nodes)))) (seq 0 (N.to_nat arity))) as [ys ->]; [|discriminate].
    intros x _. destruct (N.eqb_spec nodes 0); [contradiction|discriminate].
  - simpl in I. destruct I.
  - simpl. discriminate.
Qed.

Definition draws_rows (t : string) : Prop := forall r, recipe_parse t = Some r -> drawable r.
Definition wants (imps : list Import) (sv : Server) : Prop := forall im t, In im imps -> im_from im = STrace t -> exists tr, published sv (canonical_source_name t) tr.

Lemma clock_input sv wk : exists input, (if wk_index wk =? 0 then session_update (clock_row (sv_epoch sv), VTuple []) (sv_epoch sv) 1%Z new_session else Some new_session) = Some input /\
  se_time input = 0 /\ se_rows input = if wk_index wk =? 0 then [((clock_row (sv_epoch sv), VTuple []), sv_epoch sv, 1%Z)] else [].
Proof.
  destruct (wk_index wk =? 0).
  - rewrite session_update_some by (simpl; lia). eexists. split; [reflexivity|split; reflexivity].
  - eexists. split; [reflexivity|split; reflexivity].
Qed.

Lemma resolve_ok imps : forall sv wk sv' wk' o, inv sv wk -> resolve_imports imps sv wk = Some (sv', wk', o) ->
  inv sv' wk' /\ grows sv wk sv' wk' /\ (o = Done -> wants imps sv').
Proof.
  induction imps as [|im imps IH]; simpl; intros sv wk sv' wk' o J.
  - injection 1 as <- <- <-. split; [auto|split; [apply grows_refl|intros _ ? ? []]].
  - assert (SKIP : forall u (W : forall t, im_from im = STrace t -> exists tr, published sv (canonical_source_name t) tr),
      resolve_imports imps sv wk = Some (sv', wk', u) -> inv sv' wk' /\ grows sv wk sv' wk' /\ (u = Done -> wants (im :: imps) sv')).
    { intros u W H. apply IH in H as (J' & G & WW); auto. split; [auto|split; [auto|]]. intros E im' t [<-|I] F; [|eapply WW; eauto].
      destruct (W _ F) as [tr P]. exists tr. apply G. auto. }
    destruct (im_from im) as [pr|n|t] eqn:F; try (apply SKIP; intros ? ?; discriminate).
    destruct (shas (sv_traces sv) (canonical_source_name t)) eqn:HH.
    + apply SKIP. intros t' E. injection E as <-. apply mhas_spec in HH. auto.
    + apply mhas_false in HH.
      assert (NEXT : forall sv1 wk1, inv sv1 wk1 -> grows sv wk sv1 wk1 -> (exists tr, published sv1 (canonical_source_name t) tr) ->
        resolve_imports imps sv1 wk1 = Some (sv', wk', o) -> inv sv' wk' /\ grows sv wk sv' wk' /\ (o = Done -> wants (im :: imps) sv')).
      { intros sv1 wk1 J1 G1 [tr P] H. apply IH in H as (J' & G & WW); auto. split; [auto|split; [eapply grows_trans; eauto|]].
        intros E im' t' [<-|I] F'; [|eapply WW; eauto]. rewrite F in F'. injection F' as <-. exists tr. apply G. auto. }
      destruct (String.eqb_spec (canonical_source_name t) "clock") as [EC|NC].
      * unfold install_clock. destruct (clock_input sv wk) as (input & -> & Z & _).
        destruct (register_ok sv wk "clock" input OClock J ltac:(congruence) (or_introl eq_refl) ltac:(discriminate) ltac:(lia)) as (sv1 & wk1 & -> & J1 & G1 & P1 & _).
        apply NEXT; auto. rewrite EC. eauto.
      * destruct (recipe_parse (canonical_source_name t)) as [r|] eqn:ER.
        2: { injection 1 as <- <- <-. split; [auto|split; [apply grows_refl|discriminate]]. }
        unfold install_generated. destruct (shard _ _ r _ new_session) as [input|] eqn:ES; [|discriminate].
        apply shard_time in ES; auto.
        destruct (register_ok sv wk (canonical_source_name t) input OGenerated J HH (or_intror (ex_intro _ r ER)) ltac:(discriminate) ltac:(lia)) as (sv1 & wk1 & -> & J1 & G1 & P1 & _).
        apply NEXT; eauto.
Qed.
Lemma resolve_some imps : forall sv wk, inv sv wk -> (forall im t, In im imps -> im_from im = STrace t -> draws_rows t) ->
  resolve_imports imps sv wk <> None.
Proof.
  induction imps as [|im imps IH]; simpl; intros sv wk J H; [discriminate|].
  assert (H' : forall im t, In im imps -> im_from im = STrace t -> draws_rows t) by (intros; eapply H; eauto).
  destruct (im_from im) as [pr|n|t] eqn:F; auto.
  destruct (shas (sv_traces sv) (canonical_source_name t)) eqn:HH; auto. apply mhas_false in HH.
  destruct (String.eqb_spec (canonical_source_name t) "clock") as [EC|NC].
  - unfold install_clock. destruct (clock_input sv wk) as (input & -> & Z & _).
    destruct (register_ok sv wk "clock" input OClock J ltac:(congruence) (or_introl eq_refl) ltac:(discriminate) ltac:(lia)) as (sv1 & wk1 & -> & J1 & _). auto.
  - destruct (recipe_parse (canonical_source_name t)) as [r|] eqn:ER; [|discriminate].
    pose proof ER as ER'. rewrite recipe_parse_canonical_name in ER'. specialize (H im t (or_introl eq_refl) F r ER').
    unfold install_generated. destruct (shard_some (wk_index wk) (wk_peers wk) r (drawable_rows r H) _ new_session (incl_refl _) eq_refl) as [input ES].
    rewrite ES. apply shard_time in ES; auto.
    destruct (register_ok sv wk (canonical_source_name t) input OGenerated J HH (or_intror (ex_intro _ r ER)) ltac:(discriminate) ltac:(lia)) as (sv1 & wk1 & -> & J1 & _). auto.
Qed.

Lemma bind_ok traces imps : forall ins reads, bind_imports traces imps = Some (ins, reads) ->
  map fst reads = import_names imps /\ (forall t r, In (t, r) reads -> exists tr, sget traces t = Some tr /\ tr_dataflow tr = r) /\
  (forall k h, In (k, h) ins -> h = new_session) /\
  (forall n, In n (map fst ins) <-> exists im, In im imps /\ im_from im = SInput n).
Proof.
  induction imps as [|im imps IH]; simpl; intros ins reads.
  - injection 1 as <- <-. split; [auto|split; [intros ? ? []|split; [intros ? ? []|]]]. simpl. split; [tauto|intros (? & [] & _)].
  - destruct (im_from im) as [pr|n|t] eqn:F; [discriminate| |].
    + destruct (bind_imports traces imps) as [[ins' reads']|]; [|discriminate]. injection 1 as <- <-.
      destruct (IH _ _ eq_refl) as (A & B & C & D). split; [auto|split; [auto|split]].
      * intros k h [E|I]; [injection E as <- <-; auto|eauto].
      * intros m. simpl. rewrite D. split; [intros [<-|(im' & I & E)]; eauto|intros (im' & [<-|I] & E); [rewrite F in E; injection E as <-; auto|eauto]].
    + destruct (sget traces (canonical_source_name t)) as [tr|] eqn:G; [|discriminate].
      destruct (bind_imports traces imps) as [[ins' reads']|]; [|discriminate]. injection 1 as <- <-.
      destruct (IH _ _ eq_refl) as (A & B & C & D). split; [simpl; congruence|split; [|split; [auto|]]].
      * intros t' r [E|I]; [injection E as <- <-; eauto|eauto].
      * intros m. rewrite D. split; [intros (im' & I & E); eauto|intros (im' & [<-|I] & E); [congruence|eauto]].
Qed.
Lemma bind_some traces imps : (forall im t, In im imps -> im_from im = STrace t -> exists tr, sget traces (canonical_source_name t) = Some tr) ->
  (forall im r, In im imps -> im_from im <> SParent r) -> exists ins reads, bind_imports traces imps = Some (ins, reads).
Proof.
  induction imps as [|im imps IH]; simpl; intros H1 H2; eauto.
  destruct IH as (ins & reads & ->); eauto.
  destruct (im_from im) as [pr|n|t] eqn:F; eauto.
  - destruct (H2 im pr (or_introl eq_refl) F).
  - destruct (H1 im t (or_introl eq_refl) F) as [tr ->]. eauto.
Qed.
Lemma place_ok epoch : forall ins m, (forall k h, In (k, h) ins -> h = new_session) ->
  (forall k h, In (k, h) m -> h = {| se_time := epoch; se_rows := [] |}) -> NoDup (map fst m) ->
  exists m', place_inputs epoch ins m = Some m' /\ NoDup (map fst m') /\ (forall k h, In (k, h) m' -> h = {| se_time := epoch; se_rows := [] |}) /\
    (forall k, In k (map fst m') <-> In k (map fst ins) \/ In k (map fst m)).
Proof.
  induction ins as [|[k h] ins IH]; intros m H1 H2 U.
  - exists m. repeat split; auto. intros [[]|]; auto.
  - cbn [place_inputs]. rewrite (H1 k h (or_introl eq_refl)). cbn [session_advance]. unfold session_advance. cbn [se_time new_session Nat.leb].
    destruct (IH (nput m k {| se_time := epoch; se_rows := se_rows new_session |})) as (m' & A & B & C & D).
    + intros; eapply H1; right; eauto.
    + intros k' h' [E|I]; [injection E as <- <-; auto|]. apply in_mdel in I as []. eauto.
    + apply mput_unique. auto.
    + exists m'. repeat split; auto.
      * intros I. apply D in I as [I|[<-|I]]; simpl; auto. apply mdel_keys in I as []. auto.
      * intros I. apply D. simpl in I. simpl. rewrite mdel_keys. destruct (Nat.eq_dec k k0) as [->|N]; auto. destruct I as [[E|I]|I]; [contradiction|auto|]. right. right. auto.
Qed.

Lemma installed_put sv n p ts is e : forall m q, installed {| sv_traces := ts; sv_programs := sput (sv_programs sv) n p; sv_importers := is; sv_epoch := e |} m q <->
  (m = n /\ q = p) \/ (m <> n /\ installed sv m q).
Proof.
  intros m q. unfold installed. cbn [sv_programs]. destruct (string_dec m n) as [->|N].
  - rewrite mget_put_eq. split; [injection 1 as ->; auto|intros [[_ ->]|[]]; [auto|contradiction]].
  - rewrite mget_put_ne by auto. split; auto. intros [[]|[]]; [contradiction|auto].
Qed.

(** What a successful installation does to the state [sv1], which has the sources in place. *)
Lemma install_body name root sv wk ins reads by_pos : inv sv wk ->
  existsb (shas (sv_traces sv)) (map ex_name (sc_exports root)) = false ->
  bind_imports (sv_traces sv) (sc_imports root) = Some (ins, reads) ->
  place_inputs (sv_epoch sv) ins [] = Some by_pos ->
  inv {| sv_traces := publish (wk_next wk) (map ex_name (sc_exports root)) (sv_traces sv);
         sv_programs := sput (sv_programs sv) name {| in_inputs := by_pos; in_imports := import_names (sc_imports root); in_exports := map ex_name (sc_exports root); in_dataflow := wk_next wk; in_origin := OProgram |};
         sv_importers := count_up (import_names (sc_imports root)) (sv_importers sv);
         sv_epoch := sv_epoch sv |} (dataflow reads wk).
Proof.
  intros J HX HB HP. set (exports := map ex_name (sc_exports root)) in *. set (p0 := {| in_inputs := by_pos; in_imports := _; in_exports := _; in_dataflow := _; in_origin := _ |}).
  pose proof (running_new sv wk J reads) as PR. pose proof (next_fresh sv wk J) as NF.
  destruct (bind_ok _ _ _ _ HB) as (B1 & B2 & B3 & B4).
  destruct (place_ok (sv_epoch sv) ins [] B3 ltac:(intros ? ? []) ltac:(constructor)) as (m' & P1 & P2 & P3 & P4). rewrite HP in P1. injection P1 as <-.
  set (sv' := {| sv_traces := _; sv_programs := _; sv_importers := _; sv_epoch := _ |}).
  assert (PI : forall m q, installed sv' m q <-> (m = name /\ q = p0) \/ (m <> name /\ installed sv m q)) by (intros; apply installed_put).
  assert (NX : forall t tr, published sv t tr -> ~ In t exports).
  { intros t tr P I. assert (X : existsb (shas (sv_traces sv)) exports = true); [|congruence]. apply existsb_exists. exists t. split; auto. apply mhas_spec. eauto. }
  assert (PP : forall t tr, published sv' t tr <-> (In t exports /\ tr = {| tr_dataflow := wk_next wk; tr_since := 0 |}) \/ (~ In t exports /\ published sv t tr)).
  { intros t tr. unfold published, sv'. cbn [sv_traces]. rewrite publish_spec. destruct (in_dec string_dec t exports); [|tauto].
    split; [injection 1 as <-; auto|intros [[_ ->]|[]]; [auto|contradiction]]. }
  pose proof J as [J1 J2 J3 J4 J5 J6 J7 J8 J9 J10 J11 J12 J13].
  constructor.
  - apply publish_unique. auto.
  - apply mput_unique. auto.
  - apply mput_unique. auto.
  - intros id rs R. apply PR in R as [[-> ->]|R]; [simpl; lia|]. apply J4 in R. simpl. lia.
  - intros n p I. apply PI in I as [[-> ->]|[N I]].
    + exists reads. split; [apply PR; auto|auto].
    + apply J5 in I as (rs & R & E). exists rs. split; auto. apply PR. auto.
  - intros n p m q I1 I2 E. apply PI in I1 as [[-> ->]|[N1 I1]]; apply PI in I2 as [[-> ->]|[N2 I2]]; auto.
    + destruct (J5 _ _ I2) as (rs & R & _). apply J4 in R. simpl in E. lia.
    + destruct (J5 _ _ I1) as (rs & R & _). apply J4 in R. simpl in E. lia.
    + eauto.
  - intros t tr P. apply PP in P as [[I ->]|[N P]].
    + split; [exists reads; apply PR; auto|simpl; lia].
    + apply J7 in P as ((rs & R) & L). split; [exists rs; apply PR; auto|auto].
  - intros n p t I X. apply PI in I as [[-> ->]|[N I]].
    + eexists. split; [apply PP; left; eauto|auto].
    + destruct (J8 _ _ _ I X) as (tr & P & E). exists tr. split; auto. apply PP. right. eauto.
  - intros n p t tr I P E. apply PI in I as [[-> ->]|[N I]]; apply PP in P as [[X ->]|[N' P]].
    + auto.
    + exfalso. apply J7 in P as ((rs & R) & _). apply J4 in R. simpl in E. lia.
    + exfalso. destruct (J5 _ _ I) as (rs & R & _). apply J4 in R. simpl in E. lia.
    + eauto.
  - intros id rs t r R X. apply PR in R as [[-> ->]|R].
    + destruct (B2 _ _ X) as (tr & P & E). exists tr. split; auto. apply PP. right. split; [eapply NX; exact P|exact P].
    + destruct (J10 _ _ _ _ R X) as (tr & P & E). exists tr. split; auto. apply PP. right. eauto.
  - intros t. unfold sv'. cbn [sv_importers dataflow wk_running]. rewrite count_up_spec, J11, uses_put by auto. rewrite B1. auto.
  - intros n p k h I X. apply PI in I as [[-> ->]|[N I]].
    + apply P3 in X. subst h. auto.
    + cbn [sv' sv_epoch]. eauto.
  - intros n p I. apply PI in I as [[-> ->]|[N I]]; [auto|eauto].
Qed.
