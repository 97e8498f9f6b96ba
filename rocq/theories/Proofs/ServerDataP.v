From Coq Require Import String.
From Verif Require Export Proofs.ServerStepP.
From Coq Require Import Lia Permutation.

(** The input of a source of the server's own, when it is made. *)
Definition source_input (sv : Server) (wk : Worker) (name : string) (input : Session) (o : Origin) : Prop :=
  (o = OClock /\ name = "clock"%string /\ se_rows input = if wk_index wk =? 0 then [((clock_row (sv_epoch sv), VTuple []), sv_epoch sv, 1%Z)] else []) \/
  (o = OGenerated /\ exists r, recipe_parse name = Some r /\ shard (wk_index wk) (wk_peers wk) r (seq 0 (rows_len r)) new_session = Some input).

Lemma resolve_closed (P : Server -> Worker -> Prop) :
  (forall sv wk name input o sv' wk', inv sv wk -> P sv wk -> sget (sv_traces sv) name = None -> own_name name -> o <> OProgram -> se_time input <= sv_epoch sv ->
    source_input sv wk name input o -> register_source name input o sv wk = Some (sv', wk') -> P sv' wk') ->
  forall imps sv wk sv' wk' o, inv sv wk -> P sv wk -> resolve_imports imps sv wk = Some (sv', wk', o) -> P sv' wk'.
Proof.
  intros H. induction imps as [|im imps IH]; simpl; intros sv wk sv' wk' o J p.
  - injection 1 as <- <- <-. auto.
  - destruct (im_from im) as [pr|n|t] eqn:F; eauto.
    destruct (shas (sv_traces sv) (canonical_source_name t)) eqn:HH; eauto. apply mhas_false in HH.
    destruct (String.eqb_spec (canonical_source_name t) "clock") as [EC|NC].
    + unfold install_clock. destruct (clock_input sv wk) as (input & -> & Z & R). rewrite EC in HH.
      destruct (register_ok sv wk "clock" input OClock J HH (or_introl eq_refl) ltac:(discriminate) ltac:(lia)) as (sv1 & wk1 & E & J1 & _).
      rewrite E. apply IH; auto. refine (H sv wk _ input _ sv1 wk1 J p HH _ _ _ _ E); [left; auto|discriminate|lia|left; auto].
    + destruct (recipe_parse (canonical_source_name t)) as [r|] eqn:ER; [|injection 1 as <- <- <-; auto].
      unfold install_generated. destruct (shard _ _ r _ new_session) as [input|] eqn:ES; [|discriminate].
      pose proof (shard_time _ _ _ _ _ _ ES eq_refl) as Z.
      destruct (register_ok sv wk (canonical_source_name t) input OGenerated J HH (or_intror (ex_intro _ r ER)) ltac:(discriminate) ltac:(lia)) as (sv1 & wk1 & E & J1 & _).
      rewrite E. apply IH; auto. refine (H sv wk _ input _ sv1 wk1 J p HH _ _ _ _ E); [right; eauto|discriminate|lia|right; eauto].
Qed.

(** ** Programs under names of their own *)
Record owned (sv : Server) (wk : Worker) : Prop := {
  o_source : forall n p, installed sv n p -> in_origin p <> OProgram -> own_name n /\ in_exports p = [n];
  o_program : forall n p, installed sv n p -> in_origin p = OProgram -> ~ own_name n;
  o_running : forall id reads, running wk id reads -> exists n p, installed sv n p /\ in_dataflow p = id
}.
Lemma own_absent sv wk name : inv sv wk -> owned sv wk -> own_name name -> sget (sv_traces sv) name = None -> sget (sv_programs sv) name = None.
Proof.
  intros J O N T. destruct (sget (sv_programs sv) name) as [p|] eqn:E; auto. exfalso.
  destruct (in_origin p) eqn:OR; [apply (o_program _ _ O _ _ E OR N)| |].
  all: destruct (o_source _ _ O _ _ E ltac:(congruence)) as [_ X]; destruct (i_exports _ _ J _ _ name E ltac:(rewrite X; left; auto)) as (tr & P & _); unfold published in P; congruence.
Qed.
Lemma owned_register sv wk name input o sv' wk' : inv sv wk -> owned sv wk -> sget (sv_traces sv) name = None -> own_name name -> o <> OProgram -> se_time input <= sv_epoch sv ->
  register_source name input o sv wk = Some (sv', wk') -> owned sv' wk' /\ (forall n p, installed sv n p -> installed sv' n p).
Proof.
  intros J O T N OR L E. pose proof (own_absent _ _ _ J O N T) as AB. unfold register_source, session_advance in E.
  destruct (se_time input <=? sv_epoch sv); [|discriminate]. injection E as <- <-.
  set (p0 := {| in_inputs := _; in_imports := []; in_exports := [name]; in_dataflow := _; in_origin := o |}).
  set (sv' := {| sv_traces := _; sv_programs := _; sv_importers := _; sv_epoch := _ |}).
  assert (PI : forall m q, installed sv' m q <-> (m = name /\ q = p0) \/ (m <> name /\ installed sv m q)) by (intros; apply installed_put).
  assert (KEEP : forall n p, installed sv n p -> installed sv' n p).
  { intros n p I. apply PI. right. split; auto. intros ->. unfold installed in I. congruence. }
  split; auto. constructor.
  - intros n p I X. apply PI in I as [[-> ->]|[_ I]]; [auto|]. eapply O; eauto.
  - intros n p I X. apply PI in I as [[-> ->]|[_ I]]; [simpl in X; contradiction|]. eapply O; eauto.
  - intros id reads R. apply (running_new sv wk J) in R as [[-> ->]|R].
    + exists name, p0. split; [apply PI; auto|auto].
    + destruct (o_running _ _ O _ _ R) as (n & p & I & E). eauto.
Qed.
Lemma owned_resolve imps sv wk sv' wk' o : inv sv wk -> owned sv wk -> resolve_imports imps sv wk = Some (sv', wk', o) ->
  owned sv' wk' /\ (forall n p, installed sv n p -> installed sv' n p).
Proof.
  intros J O H. apply (resolve_closed (fun a b => owned a b /\ forall n p, installed sv n p -> installed a n p)) in H; auto.
  clear sv' wk' o H. intros sv1 wk1 name input o sv' wk' J1 [O1 K1] T N OR L _ E. eapply owned_register in E; eauto. destruct E as [E1 E2]. auto.
Qed.
Lemma owned_dispatch c sv wk sv' wk' o : inv sv wk -> owned sv wk -> (forall n root, c = Install n root -> ~ own_name n) ->
  dispatch c sv wk = Some (sv', wk', o) -> owned sv' wk'.
Proof.
  intros J O NA. destruct c as [name root|prog input key val time diff| |name|t key]; cbn [dispatch].
  - specialize (NA _ _ eq_refl). unfold install. destruct (shas (sv_programs sv) name) eqn:HN; [injection 1 as <- <- <-; auto|]. apply mhas_false in HN.
    destruct (resolve_imports (sc_imports root) sv wk) as [[[sv1 wk1] o1]|] eqn:ER; [|discriminate].
    destruct (resolve_ok _ _ _ _ _ _ J ER) as (J1 & G1 & _). destruct (owned_resolve _ _ _ _ _ _ J O ER) as [O1 K1].
    destruct o1; [|injection 1 as <- <- <-; auto]. destruct (existsb _ _); [injection 1 as <- <- <-; auto|].
    destruct (bind_imports (sv_traces sv1) (sc_imports root)) as [[ins reads]|]; [|discriminate].
    destruct (place_inputs (sv_epoch sv1) ins []) as [by_pos|]; [|discriminate]. injection 1 as <- <- <-.
    assert (AB : sget (sv_programs sv1) name = None).
    { destruct (sget (sv_programs sv1) name) as [q|] eqn:E; auto. apply G1 in E as [E|(_ & _ & E & _)]; [unfold installed in E; congruence|contradiction]. }
    constructor.
    + intros n p I X. apply installed_put in I as [[-> ->]|[_ I]]; [simpl in X; contradiction|]. eapply O1; eauto.
    + intros n p I X. apply installed_put in I as [[-> ->]|[_ I]]; [auto|]. eapply O1; eauto.
    + intros id rs R. apply (running_new sv1 wk1 J1) in R as [[-> ->]|R].
      * eexists name, _. split; [apply installed_put; left; auto|auto].
      * destruct (o_running _ _ O1 _ _ R) as (n & p & I & E). exists n, p. split; auto. apply installed_put. right. split; auto. intros ->. unfold installed in I. congruence.
  - destruct (wk_index wk =? 0); [|injection 1 as <- <- <-; auto].
    destruct (feed prog input key val time diff sv) as [[sv1 o1]|] eqn:E; [|discriminate]. injection 1 as <- <- <-.
    destruct (feed_ok _ _ _ _ _ _ _ _ _ _ J E) as (_ & RF & _ & DN). destruct o1; [|rewrite RF; auto].
    destruct (DN eq_refl) as (p & h & I & _ & ->). set (nm := canonical_source_name prog) in *.
    constructor.
    + intros n q X Y. apply installed_put in X as [[-> ->]|[_ X]]; [apply (o_source _ _ O _ _ I Y)|eapply O; eauto].
    + intros n q X Y. apply installed_put in X as [[-> ->]|[_ X]]; [apply (o_program _ _ O _ _ I Y)|eapply O; eauto].
    + intros id rs R. destruct (o_running _ _ O _ _ R) as (n & q & X & E1). destruct (string_dec n nm) as [->|N].
      * unfold installed in X, I. assert (q = p) by congruence. subst q. eexists nm, _. split; [apply installed_put; left; auto|auto].
      * exists n, q. split; auto. apply installed_put. auto.
  - destruct (tick_ok sv wk J) as (sv1 & -> & J1 & _ & _ & _ & PS). injection 1 as <- <- <-.
    assert (X : forall n p', installed sv1 n p' -> exists p, installed sv n p /\ in_exports p' = in_exports p /\ in_origin p' = in_origin p /\ in_dataflow p' = in_dataflow p).
    { intros n p' I. specialize (PS n). unfold installed in *. rewrite I in PS. destruct (sget (sv_programs sv) n) as [p|]; [|destruct PS]. exists p. intuition. }
    constructor.
    + intros n p' I Y. destruct (X _ _ I) as (p & I' & E1 & E2 & E3). rewrite E1. eapply O; eauto. congruence.
    + intros n p' I Y. destruct (X _ _ I) as (p & I' & E1 & E2 & E3). eapply O; eauto. congruence.
    + intros id rs R. destruct (o_running _ _ O _ _ R) as (n & p & I & E). specialize (PS n). unfold installed in *. rewrite I in PS.
      destruct (sget (sv_programs sv1) n) as [p'|] eqn:I'; [|destruct PS]. exists n, p'. split; auto. intuition congruence.
  - intros H. destruct (drop_ok _ _ _ _ _ _ J H) as (_ & RF & _ & DN). destruct o; [|destruct (RF eq_refl) as [-> ->]; auto].
    destruct (DN eq_refl) as (p & I & _ & _ & _ & PI & _ & PR). constructor.
    + intros n q X. apply PI in X as [X _]. eapply O; eauto.
    + intros n q X. apply PI in X as [X _]. eapply O; eauto.
    + intros id rs R. apply PR in R as [R N]. destruct (o_running _ _ O _ _ R) as (n & q & X & E). exists n, q. split; auto. apply PI. split; auto.
      intros ->. unfold installed in *. apply N. congruence.
  - intros H. destruct (peek_ok _ _ _ _ _ _ J H) as (-> & E & _). destruct O as [O1 O2 O3]. constructor; auto. unfold running. rewrite E. auto.
Qed.
Lemma after_owned index peers cs sv wk : named_apart cs -> after index peers cs sv wk -> owned sv wk.
Proof.
  intros NA (next & H). revert NA H. assert (O0 : owned server_new {| wk_index := index; wk_peers := peers; wk_next := next; wk_running := [] |}) by (constructor; discriminate).
  pose proof (inv_start index peers next) as J0. revert O0 J0. generalize server_new {| wk_index := index; wk_peers := peers; wk_next := next; wk_running := [] |}.
  induction cs as [|c cs IH]; simpl; intros sv0 wk0 O J NA; [injection 1 as <- <-; auto|].
  destruct (dispatch c sv0 wk0) as [[[sv1 wk1] o]|] eqn:E; [|discriminate]. apply IH.
  - eapply owned_dispatch; eauto. intros n root ->. apply (NA n root). left. auto.
  - eapply dispatch_inv; eauto.
  - intros n root I. apply (NA n root). right. auto.
Qed.
Lemma apart_canonical n : ~ own_name n -> canonical_source_name n = n.
Proof. intros N. unfold canonical_source_name. destruct (recipe_parse n) eqn:E; auto. destruct N. right. eauto. Qed.

(** ** What the sources say *)
Definition clock_rows (e0 e : nat) : list (row * nat * Z) :=
  ((clock_row e0, VTuple []), e0, 1%Z) :: flat_map (fun t => [((clock_row t, VTuple []), S t, (-1)%Z); ((clock_row (S t), VTuple []), S t, 1%Z)]) (seq e0 (e - e0)).
Record contents (index peers : nat) (sv : Server) (wk : Worker) : Prop := {
  c_index : wk_index wk = index;
  c_peers : wk_peers wk = peers;
  c_clock : forall n p, installed sv n p -> in_origin p = OClock ->
    exists h e0, nget (in_inputs p) 0 = Some h /\ e0 <= sv_epoch sv /\ se_rows h = if index =? 0 then clock_rows e0 (sv_epoch sv) else [];
  c_generated : forall n p, installed sv n p -> in_origin p = OGenerated ->
    exists h r s, nget (in_inputs p) 0 = Some h /\ recipe_parse n = Some r /\ shard index peers r (seq 0 (rows_len r)) new_session = Some s /\ se_rows h = se_rows s
}.
Lemma contents_register index peers sv wk name input o sv' wk' : contents index peers sv wk -> o <> OProgram ->
  source_input sv wk name input o -> register_source name input o sv wk = Some (sv', wk') -> contents index peers sv' wk'.
Proof.
  intros C OR S E. unfold register_source, session_advance in E.
  destruct (se_time input <=? sv_epoch sv); [|discriminate]. injection E as <- <-. destruct C as [C1 C2 C3 C4]. constructor; auto.
  - intros n p I X. cbn [sv_epoch]. apply installed_put in I as [[-> ->]|[_ I]]; [|eauto]. simpl in X. subst o.
    destruct S as [(_ & -> & R)|(Q & _)]; [|discriminate]. eexists _, (sv_epoch sv). split; [reflexivity|split; [auto|]]. simpl. rewrite R, C1.
    unfold clock_rows. rewrite Nat.sub_diag. auto.
  - intros n p I X. apply installed_put in I as [[-> ->]|[_ I]]; [|eauto]. simpl in X. subst o.
    destruct S as [(Q & _)|(_ & r & ER & ES)]; [discriminate|]. rewrite C1, C2 in ES. eexists _, r, input. split; [reflexivity|split; [auto|split; [auto|reflexivity]]].
Qed.
Lemma contents_dispatch index peers c sv wk sv' wk' o : inv sv wk -> contents index peers sv wk ->
  dispatch c sv wk = Some (sv', wk', o) -> contents index peers sv' wk'.
Proof.
  intros J C. destruct c as [name root|prog input key val time diff| |name|t key]; cbn [dispatch].
  - unfold install. destruct (shas (sv_programs sv) name) eqn:HN; [injection 1 as <- <- <-; auto|].
    destruct (resolve_imports (sc_imports root) sv wk) as [[[sv1 wk1] o1]|] eqn:ER; [|discriminate].
    apply (resolve_closed (contents index peers)) in ER; auto.
    2: { intros. eapply contents_register; eauto. }
    destruct o1; [|injection 1 as <- <- <-; auto]. destruct (existsb _ _); [injection 1 as <- <- <-; auto|].
    destruct (bind_imports (sv_traces sv1) (sc_imports root)) as [[ins reads]|]; [|discriminate].
    destruct (place_inputs (sv_epoch sv1) ins []) as [by_pos|]; [|discriminate]. injection 1 as <- <- <-.
    destruct ER as [C1 C2 C3 C4]. constructor; auto.
    + intros n p I X. apply installed_put in I as [[-> ->]|[_ I]]; [discriminate X|]. apply (C3 _ _ I X).
    + intros n p I X. apply installed_put in I as [[-> ->]|[_ I]]; [discriminate X|]. apply (C4 _ _ I X).
  - destruct (wk_index wk =? 0); [|injection 1 as <- <- <-; auto].
    destruct (feed prog input key val time diff sv) as [[sv1 o1]|] eqn:E; [|discriminate]. injection 1 as <- <- <-.
    destruct (feed_ok _ _ _ _ _ _ _ _ _ _ J E) as (_ & RF & FD & DN). destruct o1; [|rewrite RF; auto].
    destruct (DN eq_refl) as (p & h & I & _ & ->). destruct (proj1 FD eq_refl) as (_ & p' & h' & I' & O' & _).
    unfold installed in I, I'. assert (p' = p) by congruence. subst p'.
    destruct C as [C1 C2 C3 C4]. constructor; auto.
    + intros n q X Y. apply installed_put in X as [[-> ->]|[_ X]]; [simpl in Y; congruence|]. apply (C3 _ _ X Y).
    + intros n q X Y. apply installed_put in X as [[-> ->]|[_ X]]; [simpl in Y; congruence|]. apply (C4 _ _ X Y).
  - destruct (tick_ok sv wk J) as (sv1 & -> & J1 & EP & _ & _ & PS). injection 1 as <- <- <-. destruct C as [C1 C2 C3 C4].
    assert (X : forall n p', installed sv1 n p' -> exists p, installed sv n p /\ in_origin p' = in_origin p /\ forall k, nget (in_inputs p') k = match nget (in_inputs p) k with Some h => Some {| se_time := S (sv_epoch sv); se_rows := ticked_rows (wk_index wk =? 0) (sv_epoch sv) p k (se_rows h) |} | None => None end).
    { intros n p' I. specialize (PS n). unfold installed in *. rewrite I in PS. destruct (sget (sv_programs sv) n) as [p|]; [|destruct PS]. exists p. intuition. }
    constructor; auto.
    + intros n p' I Y. destruct (X _ _ I) as (p & I' & E & K). destruct (C3 _ _ I' ltac:(congruence)) as (h & e0 & G & L & R).
      eexists _, e0. rewrite K, G. split; [reflexivity|]. rewrite EP. split; [lia|]. cbn [se_rows]. unfold ticked_rows. rewrite <- E, Y, C1, R. simpl Nat.eqb. rewrite andb_true_r.
      destruct (index =? 0); auto. unfold clock_rows. rewrite (Nat.sub_succ_l _ _ L), seq_S, flat_map_app. simpl. replace (e0 + (sv_epoch sv - e0)) with (sv_epoch sv) by lia. auto.
    + intros n p' I Y. destruct (X _ _ I) as (p & I' & E & K). destruct (C4 _ _ I' ltac:(congruence)) as (h & r & s & G & A & B & R).
      eexists _, r, s. rewrite K, G. split; [reflexivity|]. split; [auto|split; [auto|]]. cbn [se_rows]. unfold ticked_rows. rewrite <- E, Y. auto.
  - intros H. destruct (drop_ok _ _ _ _ _ _ J H) as (_ & RF & _ & DN). destruct o; [|destruct (RF eq_refl) as [-> ->]; auto].
    destruct (DN eq_refl) as (p & I & EP & E1 & E2 & PI & _ & PR). destruct C as [C1 C2 C3 C4]. constructor; try congruence.
    + intros n q X Y. apply PI in X as [X _]. rewrite EP. eauto.
    + intros n q X Y. apply PI in X as [X _]. eauto.
  - intros H. destruct (peek_ok _ _ _ _ _ _ J H) as (-> & _ & E1 & E2 & _). destruct C as [C1 C2 C3 C4]. constructor; auto; congruence.
Qed.
Lemma after_contents index peers cs sv wk : after index peers cs sv wk -> contents index peers sv wk.
Proof.
  intros (next & H). revert H. assert (O0 : contents index peers server_new {| wk_index := index; wk_peers := peers; wk_next := next; wk_running := [] |}) by (constructor; auto; discriminate).
  pose proof (inv_start index peers next) as J0. revert O0 J0. generalize server_new {| wk_index := index; wk_peers := peers; wk_next := next; wk_running := [] |}.
  induction cs as [|c cs IH]; simpl; intros sv0 wk0 O J; [injection 1 as <- <-; auto|].
  destruct (dispatch c sv0 wk0) as [[[sv1 wk1] o]|] eqn:E; [|discriminate]. apply IH.
  - eapply contents_dispatch; eauto.
  - eapply dispatch_inv; eauto.
Qed.

Lemma total_app e a b r : total_before e (a ++ b) r = (total_before e a r + total_before e b r)%Z.
Proof.
  unfold total_before. induction a as [|x a IH]; simpl; [auto|]. destruct (eqb (fst (fst x)) r && (snd (fst x) <? e)); simpl; rewrite IH; ring.
Qed.
Lemma total_cons e x a r : total_before e (x :: a) r = ((if eqb (fst (fst x)) r && (snd (fst x) <? e)%nat then snd x else 0) + total_before e a r)%Z.
Proof. unfold total_before. simpl. destruct (eqb (fst (fst x)) r && (snd (fst x) <? e)); simpl; ring. Qed.
Lemma clock_total e0 e t r : e0 <= t <= e -> total_before (S t) (clock_rows e0 e) r = if eqb (A:=row) (clock_row t, VTuple []) r then 1%Z else 0%Z.
Proof.
  intros [L1 L2]. unfold clock_rows.
  replace (e - e0) with ((t - e0) + (e - t)) by lia. rewrite seq_app, flat_map_app. replace (e0 + (t - e0)) with t by lia.
  assert (FUT : forall n s, t <= s -> total_before (S t) (flat_map (fun t => [((clock_row t, VTuple []), S t, (-1)%Z); ((clock_row (S t), VTuple []), S t, 1%Z)]) (seq s n)) r = 0%Z).
  { induction n as [|n IH]; intros s Ls; [reflexivity|]. cbn [seq flat_map app]. rewrite !total_cons, IH by lia. cbn [fst snd].
    destruct (Nat.ltb_spec (S s) (S t)); [lia|]. rewrite !andb_false_r. auto. }
  rewrite app_comm_cons, total_app, FUT by auto. rewrite Z.add_0_r.
  assert (PAST : forall n, e0 + n <= t -> total_before (S t) (((clock_row e0, VTuple []), e0, 1%Z) :: flat_map (fun t => [((clock_row t, VTuple []), S t, (-1)%Z); ((clock_row (S t), VTuple []), S t, 1%Z)]) (seq e0 n)) r
     = if eqb (A:=row) (clock_row (e0 + n), VTuple []) r then 1%Z else 0%Z).
  { induction n as [|n IH]; intros Ln.
    - rewrite total_cons. cbn [fst snd seq flat_map]. destruct (Nat.ltb_spec e0 (S t)); [|lia]. rewrite Nat.add_0_r, andb_true_r. change (total_before (S t) [] r) with 0%Z. destruct (eqb _ r); reflexivity.
    - rewrite seq_S, flat_map_app, app_comm_cons, total_app, IH by lia. cbn [flat_map app]. rewrite !total_cons. cbn [fst snd].
      destruct (Nat.ltb_spec (S (e0 + n)) (S t)); [|lia]. rewrite !andb_true_r. change (total_before (S t) [] r) with 0%Z. rewrite Nat.add_succ_r.
      destruct (eqb (A:=row) (clock_row (e0 + n), VTuple []) r), (eqb (A:=row) (clock_row (S (e0 + n)), VTuple []) r); reflexivity. }
  rewrite PAST by lia. replace (e0 + (t - e0)) with t by lia. auto.
Qed.
Lemma clock_before e0 e t r : t < e0 -> total_before (S t) (clock_rows e0 e) r = 0%Z.
Proof.
  intros L. unfold clock_rows.
  assert (X : forall l, (forall u, In u l -> S t <= snd (fst u)) -> total_before (S t) l r = 0%Z).
  { induction l as [|u l IH]; intros H; [reflexivity|]. rewrite total_cons, IH by (intros; apply H; right; auto).
    specialize (H u (or_introl eq_refl)). destruct (Nat.ltb_spec (snd (fst u)) (S t)); [lia|]. rewrite andb_false_r. auto. }
  apply X. intros u [<-|I]; [simpl; lia|]. apply in_flat_map in I as (s & I & Y). apply in_seq in I. destruct Y as [<-|[<-|[]]]; simpl; lia.
Qed.

(** Shards of a generated source *)
Lemma shard_rows index peers r : forall es s s', shard index peers r es s = Some s' ->
  exists rows, se_rows s' = (se_rows s ++ rows)%list /\ Forall2 (fun e u => exists x, recipe_row r e = Some x /\ u = (x, 0, 1%Z)) (filter (fun e => e mod peers =? index) es) rows.
Proof.
  induction es as [|e es IH]; simpl; intros s s'.
  - injection 1 as <-. exists []. rewrite app_nil_r. split; auto.
  - destruct (e mod peers =? index); [|eauto]. destruct (recipe_row r e) as [x|] eqn:E; [|discriminate].
    unfold session_update. destruct (se_time s <=? 0); [|discriminate]. intros H. apply IH in H as (rows & A & B). cbn [se_rows] in A.
    exists ((x, 0, 1%Z) :: rows). split; [rewrite A, <- app_assoc; auto|]. constructor; eauto.
Qed.
Lemma split_by_residue peers (es : list nat) : peers <> 0 -> Permutation (flat_map (fun index => filter (fun e => e mod peers =? index) es) (seq 0 peers)) es.
Proof.
  intros P. induction es as [|e es IH].
  - assert (forall l, flat_map (fun _ : nat => @nil nat) l = []) as X by (induction l; auto). simpl. rewrite X. auto.
  - pose proof (Nat.mod_upper_bound e peers P) as L. set (k := e mod peers) in *.
    assert (E : seq 0 peers = (seq 0 k ++ k :: seq (S k) (peers - S k))%list).
    { replace peers with (k + S (peers - S k)) at 1 by lia. rewrite seq_app. auto. }
    assert (NE : forall l, ~ In k l -> flat_map (fun index => filter (fun e0 => e0 mod peers =? index) (e :: es)) l = flat_map (fun index => filter (fun e0 => e0 mod peers =? index) es) l).
    { induction l as [|x l IHl]; intros N; [auto|]. cbn [flat_map filter]. fold k. destruct (Nat.eqb_spec k x); [destruct N; left; auto|]. f_equal. apply IHl. intros I. apply N. right. auto. }
    rewrite E in *. rewrite flat_map_app in *. cbn [flat_map] in *. rewrite !NE by (rewrite in_seq; lia). cbn [filter]. fold k. rewrite Nat.eqb_refl. cbn [app].
    etransitivity; [symmetry; apply Permutation_middle|]. constructor. auto.
Qed.
