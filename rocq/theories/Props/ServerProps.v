(** C64: a live server keeps what its programs read alive, refuses what would break them, and shows what is
    there. *)
From Coq Require Import String.
From Verif Require Import Spec.ServerSpec Proofs.ServerP Proofs.ServerInvP Proofs.ServerStepP Proofs.ServerDataP Proofs.ServerPeekP Proofs.ServerWorkersP.
From Coq Require Import Lia Permutation.
Local Open Scope string_scope.
Local Open Scope nat_scope.

(** ** Lifetimes *)

(** Whatever commands were given: what a running dataflow reads is published, by a dataflow that runs. *)
Theorem c64_reads_live index peers cs sv wk id reads t producer : after index peers cs sv wk ->
  running wk id reads -> In (t, producer) reads ->
  (exists tr, published sv t tr /\ tr_dataflow tr = producer) /\ exists rs, running wk producer rs.
Proof.
  intros A R I. apply after_inv in A. destruct (i_reads _ _ A _ _ _ _ R I) as (tr & P & E). split; [eauto|].
  destruct (i_trace _ _ A _ _ P) as [(rs & Q) _]. exists rs. congruence.
Qed.
Print Assumptions c64_reads_live.
(** An installed program runs, reads what it imports, and all it exports is published. *)
Theorem c64_installed index peers cs sv wk n p : after index peers cs sv wk -> installed sv n p ->
  (exists reads, running wk (in_dataflow p) reads /\ map fst reads = in_imports p) /\
  forall t, In t (in_exports p) <-> exists tr, published sv t tr /\ tr_dataflow tr = in_dataflow p.
Proof.
  intros A I. apply after_inv in A. split; [eapply i_prog; eauto|]. intros t. split; [eapply i_exports; eauto|].
  intros (tr & P & E). eapply i_owner; eauto.
Qed.
Print Assumptions c64_installed.
(** If programs are not given names of the server's sources, all that runs and all that is published belongs
    to a program that is installed, and to one only; and the name a program was given is the one to use. *)
Theorem c64_owned index peers cs sv wk : named_apart cs -> after index peers cs sv wk ->
  (forall id reads, running wk id reads -> exists n p, installed sv n p /\ in_dataflow p = id) /\
  (forall t tr, published sv t tr -> exists n p, installed sv n p /\ In t (in_exports p)) /\
  (forall n p m q, installed sv n p -> installed sv m q -> in_dataflow p = in_dataflow q -> n = m) /\
  (forall n p, installed sv n p -> in_origin p = OProgram -> canonical_source_name n = n).
Proof.
  intros N A. pose proof (after_owned _ _ _ _ _ N A) as O. apply after_inv in A. split; [apply O|]. split; [|split; [apply A|]].
  - intros t tr P. destruct (i_trace _ _ A _ _ P) as [(rs & R) _]. destruct (o_running _ _ O _ _ R) as (n & p & I & E). exists n, p. split; auto. eapply i_owner; eauto.
  - intros n p I E. apply apart_canonical. eapply o_program; eauto.
Qed.
Print Assumptions c64_owned.

(** ** Commands *)

(** No command panics, if generated sources make sense. *)
Theorem c64_no_panic index peers cs sv wk c : after index peers cs sv wk -> sensible c ->
  exists sv' wk' o, dispatch c sv wk = Some (sv', wk', o).
Proof.
  intros A S. apply after_inv in A. enough (H : dispatch c sv wk <> None) by (destruct (dispatch c sv wk) as [[[a b] o]|]; [eauto|contradiction]).
  destruct c; cbn [dispatch].
  - apply install_some; auto.
  - destruct (wk_index wk =? 0); [|discriminate]. destruct (feed _ _ _ _ _ _ sv) as [[? ?]|] eqn:F; [discriminate|]. destruct (feed_some _ _ _ _ _ _ _ _ A F).
  - destruct (tick_ok sv wk A) as (s & -> & _). discriminate.
  - unfold drop_program. destruct (sget _ _); [|discriminate]. destruct (existsb _ _); discriminate.
  - unfold peek. destruct (sget _ _); discriminate.
Qed.
Print Assumptions c64_no_panic.
Theorem c64_serves index peers next cs : (forall c, In c cs -> sensible c) ->
  serve cs server_new {| wk_index := index; wk_peers := peers; wk_next := next; wk_running := [] |} <> None.
Proof.
  generalize (inv_start index peers next). generalize server_new. generalize {| wk_index := index; wk_peers := peers; wk_next := next; wk_running := [] |}.
  intros wk sv J. clear index peers next. revert wk sv J. induction cs as [|c cs IH]; simpl; intros wk sv J H; [discriminate|].
  destruct (dispatch c sv wk) as [[[a b] o]|] eqn:D; [apply IH; eauto; eapply dispatch_inv; eauto|].
  exfalso. assert (S : sensible c) by auto. revert D. destruct c; cbn [dispatch].
  - intros D. destruct (install_some _ _ _ _ J S D).
  - destruct (wk_index wk =? 0); [|discriminate]. destruct (feed _ _ _ _ _ _ sv) as [[? ?]|] eqn:F; [discriminate|]. destruct (feed_some _ _ _ _ _ _ _ _ J F).
  - destruct (tick_ok sv wk J) as (s & -> & _). discriminate.
  - unfold drop_program. destruct (sget _ _); [|discriminate]. destruct (existsb _ _); discriminate.
  - unfold peek. destruct (sget _ _); discriminate.
Qed.
Print Assumptions c64_serves.

(** A program is dropped just if it is there and none of its exports is in use.  Then it, what it exports and
    its dataflow go, and nothing else; otherwise nothing changes. *)
Theorem c64_drop index peers cs sv wk name sv' wk' o : after index peers cs sv wk -> dispatch (Drop name) sv wk = Some (sv', wk', o) ->
  (o = Done <-> exists p, installed sv (canonical_source_name name) p /\ forall t, In t (in_exports p) -> ~ in_use wk t) /\
  (o = Refused -> sv' = sv /\ wk' = wk) /\
  (o = Done -> exists p, installed sv (canonical_source_name name) p /\ sv_epoch sv' = sv_epoch sv /\
    (forall n q, installed sv' n q <-> installed sv n q /\ n <> canonical_source_name name) /\
    (forall t tr, published sv' t tr <-> published sv t tr /\ ~ In t (in_exports p)) /\
    (forall id reads, running wk' id reads <-> running wk id reads /\ id <> in_dataflow p)).
Proof.
  intros A H. apply after_inv in A. destruct (drop_ok _ _ _ _ _ _ A H) as (_ & R & D & E). split; [auto|split; [auto|]].
  intros X. destruct (E X) as (p & I & E1 & _ & _ & E2 & E3 & E4). exists p. split; [auto|split; [auto|split; [auto|split; auto]]].
Qed.
Print Assumptions c64_drop.

(** A program is installed just if its name is free, what it imports is published or a source the server can
    make, and what it exports is neither published nor imported. *)
Theorem c64_install index peers cs sv wk name root sv' wk' o : after index peers cs sv wk -> dispatch (Install name root) sv wk = Some (sv', wk', o) ->
  (o = Done <->
    (forall p, ~ installed sv name p) /\
    (forall im t, In im (sc_imports root) -> im_from im = STrace t ->
      (exists tr, published sv (canonical_source_name t) tr) \/ own_name (canonical_source_name t)) /\
    (forall ex, In ex (sc_exports root) -> (forall tr, ~ published sv (ex_name ex) tr) /\
      forall im t, In im (sc_imports root) -> im_from im = STrace t -> canonical_source_name t <> ex_name ex)).
Proof.
  intros A H. apply after_inv in A. cbn [dispatch] in H. rewrite (install_fate _ _ _ _ _ _ _ A H).
  assert (N : forall x, In x (import_names (sc_imports root)) <-> exists im t, In im (sc_imports root) /\ im_from im = STrace t /\ canonical_source_name t = x).
  { intros x. unfold import_names. rewrite in_flat_map. split.
    - intros (im & I & J). destruct (im_from im) as [| |t] eqn:F; [destruct J|destruct J|]. destruct J as [J|[]]. eauto.
    - intros (im & t & I & F & E). exists im. rewrite F. split; [auto|left; auto]. }
  split; intros (F1 & F2 & F3); (split; [auto|split]).
  - intros im t I F. apply F2, N. eauto.
  - intros ex I. destruct (F3 (ex_name ex) (in_map _ _ _ I)) as [G1 G2]. split; [auto|]. intros im t J F E. apply G2, N. eauto.
  - intros t I. apply N in I as (im & x & I & F & <-). eapply F2; eauto.
  - intros t I. apply in_map_iff in I as (ex & <- & I). destruct (F3 ex I) as [G1 G2]. split; [auto|]. intros J. apply N in J as (im & x & J & F & E). eapply G2; eauto.
Qed.
Print Assumptions c64_install.
(** Then it runs in a new dataflow, reads what it imports, publishes what it exports, and has an input at the
    epoch, with nothing in it, for each that it names. *)
Theorem c64_install_effect index peers cs sv wk name root sv' wk' : after index peers cs sv wk -> dispatch (Install name root) sv wk = Some (sv', wk', Done) ->
  sv_epoch sv' = sv_epoch sv /\
  exists p reads, installed sv' name p /\ in_origin p = OProgram /\ in_exports p = map ex_name (sc_exports root) /\
    (forall rs, ~ running wk (in_dataflow p) rs) /\ running wk' (in_dataflow p) reads /\
    map fst reads = flat_map (fun im => match im_from im with STrace t => [canonical_source_name t] | _ => [] end) (sc_imports root) /\
    (forall ex, In ex (sc_exports root) -> published sv' (ex_name ex) {| tr_dataflow := in_dataflow p; tr_since := 0 |}) /\
    (forall k h, nget (in_inputs p) k = Some h -> h = {| se_time := sv_epoch sv; se_rows := [] |}) /\
    (forall k, nget (in_inputs p) k <> None <-> exists im, In im (sc_imports root) /\ im_from im = SInput k).
Proof.
  intros A H. apply after_inv in A. cbn [dispatch] in H. destruct (install_ok _ _ _ _ _ _ _ A H) as (_ & _ & D).
  destruct (D eq_refl) as (_ & sv1 & wk1 & reads & by_pos & J1 & G & _ & _ & E1 & _ & U & E2 & E3 & -> & ->). destruct G as (G1 & _ & _ & _ & _ & G6 & _ & _ & _ & G10). split; [exact G1|].
  eexists _, reads. split; [unfold installed; cbn [sv_programs]; apply mget_put_eq|]. cbn [in_origin in_exports in_dataflow in_inputs]. split; [auto|split; [auto|split; [|split; [|split; [|split; [|split]]]]]].
  - intros rs R. apply (i_next _ _ A) in R. lia.
  - unfold running. cbn [dataflow wk_running]. apply mget_put_eq.
  - exact E1.
  - intros ex I. unfold published. cbn [sv_traces]. rewrite publish_spec. destruct (in_dec _ _ _) as [|N]; [auto|]. destruct N. apply in_map. auto.
  - intros k h I. rewrite <- G1. apply mget_in in I. eapply E2; eauto.
  - intros k. rewrite <- E3. destruct (nget by_pos k) as [h|] eqn:Q.
    + split; [intros _|discriminate]. apply mget_in in Q. apply in_map_iff. exists (k, h). auto.
    + split; [contradiction|]. intros I. apply mget_none in Q. contradiction.
Qed.
Print Assumptions c64_install_effect.
(** Whether it is installed or refused: what ran runs, what was published is published, and, if programs have
    names of their own, they are as they were.  What is new is of this program, or a source of the server. *)
Theorem c64_install_frame index peers cs sv wk name root sv' wk' o : named_apart (Install name root :: cs) ->
  after index peers cs sv wk -> dispatch (Install name root) sv wk = Some (sv', wk', o) ->
  (forall id reads, running wk id reads -> running wk' id reads) /\
  (forall t tr, published sv t tr -> published sv' t tr) /\
  (forall n p, installed sv n p -> installed sv' n p) /\
  (forall n p, installed sv' n p -> installed sv n p \/ (o = Done /\ n = name) \/ (in_origin p <> OProgram /\ own_name n)).
Proof.
  intros N A H. cbn [dispatch] in H. assert (NA : named_apart cs) by (intros ? ? I; eapply N; right; eauto).
  pose proof (after_owned _ _ _ _ _ NA A) as O. apply after_inv in A. unfold install in H.
  destruct (shas (sv_programs sv) name) eqn:HN; [injection H as <- <- <-; auto|]. apply mhas_false in HN.
  destruct (resolve_imports (sc_imports root) sv wk) as [[[a b] x]|] eqn:E; [|discriminate].
  destruct (resolve_ok _ _ _ _ _ _ A E) as (J & (G1 & G2 & G3 & G4 & G5 & G6 & G7 & G8 & G9 & G10) & _). destruct (owned_resolve _ _ _ _ _ _ A O E) as [_ K].
  assert (Q : forall n p, installed a n p -> installed sv n p \/ (in_origin p <> OProgram /\ own_name n)) by (intros n p I; apply G8 in I as [|(? & _ & ? & _)]; auto).
  destruct x; [|injection H as <- <- <-; split; [auto|split; [auto|split; [auto|intros n p I; apply Q in I; tauto]]]].
  destruct (existsb _ _) eqn:X; [injection H as <- <- <-; split; [auto|split; [auto|split; [auto|intros n p I; apply Q in I; tauto]]]|].
  destruct (bind_imports _ _) as [[ins reads]|]; [|discriminate]. destruct (place_inputs _ _ _) as [bp|]; [|discriminate]. injection H as <- <- <-.
  split; [|split; [|split]].
  - intros id rs R. apply G6 in R. apply (running_new a b J). right. auto.
  - intros t tr P. apply G5 in P. unfold published in *. cbn [sv_traces]. rewrite publish_spec. destruct (in_dec string_dec t _) as [I|]; [|auto].
    exfalso. assert (existsb (shas (sv_traces a)) (map ex_name (sc_exports root)) = true); [|congruence]. apply existsb_exists. exists t. split; [auto|]. apply mhas_spec. eauto.
  - intros n p I. apply installed_put. right. split; [intros ->; unfold installed in I; congruence|auto].
  - intros n p I. apply installed_put in I as [[-> ->]|[_ I]]; [tauto|]. apply Q in I. tauto.
Qed.
Print Assumptions c64_install_frame.

(** A row is taken just if its time is not before the epoch and it is for an input of a program.  Then it is
    the last of that input, and all other inputs are as they were; otherwise nothing changes. *)
Theorem c64_feed peers cs sv wk prog input key val time diff sv' wk' o : after 0 peers cs sv wk ->
  dispatch (Feed prog input key val time diff) sv wk = Some (sv', wk', o) ->
  let t := match time with Some t => t | None => sv_epoch sv end in
  (o = Done <-> sv_epoch sv <= t /\ exists p, installed sv (canonical_source_name prog) p /\ in_origin p = OProgram /\ nget (in_inputs p) input <> None) /\
  (o = Refused -> sv' = sv) /\ wk' = wk /\ sv_traces sv' = sv_traces sv /\ sv_epoch sv' = sv_epoch sv /\
  (forall n k, match sget (sv_programs sv) n, sget (sv_programs sv') n with
    | Some p, Some q => in_dataflow q = in_dataflow p /\ in_exports q = in_exports p /\ in_imports q = in_imports p /\ in_origin q = in_origin p /\
        match nget (in_inputs p) k, nget (in_inputs q) k with
        | Some h, Some g => se_rows g =
            (if string_dec n (canonical_source_name prog) then if Nat.eq_dec k input then match o with Done => se_rows h ++ [((key, val), t, diff)] | Refused => se_rows h end else se_rows h else se_rows h)%list
        | None, None => True
        | _, _ => False
        end
    | None, None => True
    | _, _ => False
    end).
Proof.
  intros A H t. pose proof (c_index _ _ _ _ (after_contents _ _ _ _ _ A)) as WI. apply after_inv in A. cbn [dispatch] in H. rewrite WI in H. cbn [Nat.eqb] in H.
  destruct (feed prog input key val time diff sv) as [[s x]|] eqn:F; [|discriminate]. injection H as <- <- <-. destruct (feed_ok _ _ _ _ _ _ _ _ _ _ A F) as (_ & R & D & X).
  split.
  { rewrite D. split.
    - intros (L & p & h & I & O & G). split; [exact L|]. exists p. split; [auto|split; [auto|congruence]].
    - intros (L & p & I & O & G). split; [exact L|]. destruct (nget (in_inputs p) input) as [h|] eqn:Q; [|contradiction]. eauto 6. }
  split; [auto|split; [auto|]]. destruct x.
  - destruct (X eq_refl) as (p0 & h0 & I & G & ->). split; [auto|split; [auto|]]. intros n k. cbn [set_programs sv_programs].
    destruct (string_dec n (canonical_source_name prog)) as [->|N].
    + rewrite mget_put_eq. unfold installed in I. rewrite I. cbn [set_inputs in_dataflow in_exports in_imports in_origin in_inputs]. split; [auto|split; [auto|split; [auto|split; [auto|]]]].
      destruct (Nat.eq_dec k input) as [->|M]; [rewrite mget_put_eq, G; auto|]. rewrite mget_put_ne by auto. destruct (nget (in_inputs p0) k); auto.
    + rewrite mget_put_ne by auto. destruct (sget (sv_programs sv) n) as [p|]; auto. split; [auto|split; [auto|split; [auto|split; [auto|]]]]. destruct (nget (in_inputs p) k); auto.
  - rewrite (R eq_refl). split; [auto|split; [auto|]]. intros n k. destruct (sget (sv_programs sv) n) as [p|]; auto. split; [auto|split; [auto|split; [auto|split; [auto|]]]].
    destruct (nget (in_inputs p) k); auto. destruct (string_dec _ _); auto. destruct (Nat.eq_dec _ _); auto.
Qed.
Print Assumptions c64_feed.

(** A tick adds one to the epoch, moves every input there, and adds nothing to the inputs of programs. *)
Theorem c64_tick index peers cs sv wk : after index peers cs sv wk -> exists sv', dispatch Tick sv wk = Some (sv', wk, Done) /\
  sv_epoch sv' = S (sv_epoch sv) /\
  (forall n p', installed sv' n p' -> forall k h', nget (in_inputs p') k = Some h' -> se_time h' = sv_epoch sv') /\
  (forall n p, installed sv n p -> exists p', installed sv' n p' /\ in_dataflow p' = in_dataflow p /\ in_exports p' = in_exports p /\ in_imports p' = in_imports p /\ in_origin p' = in_origin p /\
    forall k h, nget (in_inputs p) k = Some h -> exists h', nget (in_inputs p') k = Some h' /\ (in_origin p <> OClock -> se_rows h' = se_rows h)).
Proof.
  intros A. apply after_inv in A. destruct (tick_ok sv wk A) as (s & E & J & E1 & _ & _ & PS). exists s. cbn [dispatch]. rewrite E. split; [auto|split; [auto|split]].
  - intros n p' I k h' G. eapply i_time; eauto. eapply mget_in; eauto.
  - intros n p I. specialize (PS n). unfold installed in *. rewrite I in PS. destruct (sget (sv_programs s) n) as [q|]; [|contradiction]. exists q. destruct PS as (P1 & P2 & P3 & P4 & P5).
    split; [auto|split; [auto|split; [auto|split; [auto|split; [auto|]]]]]. intros k h G. specialize (P5 k). rewrite G in P5. eexists. split; [exact P5|]. cbn [se_rows]. unfold ticked_rows. destruct (in_origin p); congruence.
Qed.
Print Assumptions c64_tick.

(** ** What is shown *)

(** A peek changes nothing that stays. *)
Theorem c64_peek_frame index peers cs sv wk name key sv' wk' o : after index peers cs sv wk -> dispatch (Peek name key) sv wk = Some (sv', wk', o) ->
  sv' = sv /\ wk_running wk' = wk_running wk /\ (o = Done <-> exists tr, published sv (canonical_source_name name) tr).
Proof. intros A H. apply after_inv in A. destruct (peek_ok _ _ _ _ _ _ A H) as (-> & -> & _ & _ & _ & _ & D). auto. Qed.
Print Assumptions c64_peek_frame.
(** It shows, of a published trace, each row that matches with its total over all times before the epoch, in
    order and once, and no row whose total is zero: whatever was compacted, [us] being any updates that agree
    with the history [hist] of the trace from its frontier on. *)
Theorem c64_peek index peers cs sv wk t tr key hist us : after index peers cs sv wk -> published sv t tr ->
  same_beyond (D:=row) (T:=nat) (R:=Z) [tr_since tr] hist us ->
  consolidated (A:=row) (peek_rows (sv_epoch sv) key us) /\
  forall r, (key_matches key r -> weigh (peek_rows (sv_epoch sv) key us) r = total_before (sv_epoch sv) hist r) /\
            (~ key_matches key r -> weigh (peek_rows (sv_epoch sv) key us) r = 0%Z).
Proof.
  intros A P S. apply after_inv in A. destruct (i_trace _ _ A _ _ P) as [_ L]. destruct (peek_all (sv_epoch sv) key us) as [C W]. split; [auto|]. intros r. rewrite W.
  assert (X : total_before (sv_epoch sv) us r = total_before (sv_epoch sv) hist r).
  { destruct (sv_epoch sv) as [|e]; [rewrite !total_zero; auto|]. rewrite !total_acc. symmetry. apply S. exists (tr_since tr). split; [left; auto|]. apply nat_tle. lia. }
  split; intros M; [apply key_match_spec in M; rewrite M; auto|]. destruct (key_match key r) eqn:Q; [apply key_match_spec in Q; contradiction|auto].
Qed.
Print Assumptions c64_peek.

(** The clock has, at each time from when it was made to the epoch, one row that says the time; before, none. *)
Theorem c64_clock peers cs sv wk n p : after 0 peers cs sv wk -> installed sv n p -> in_origin p = OClock ->
  exists h e0, nget (in_inputs p) 0 = Some h /\ e0 <= sv_epoch sv /\
    forall t r, t <= sv_epoch sv -> total_before (S t) (se_rows h) r = if e0 <=? t then if eqb (A:=row) (clock_row t, VTuple []) r then 1%Z else 0%Z else 0%Z.
Proof.
  intros A I O. destruct (c_clock _ _ _ _ (after_contents _ _ _ _ _ A) _ _ I O) as (h & e0 & G & L & E). exists h, e0. split; [auto|split; [auto|]]. intros t r B. rewrite E. cbn [Nat.eqb].
  destruct (Nat.leb_spec e0 t); [apply clock_total; lia|apply clock_before; lia].
Qed.
Print Assumptions c64_clock.
(** Only the first worker says it. *)
Theorem c64_clock_once index peers cs sv wk n p : after index peers cs sv wk -> index <> 0 -> installed sv n p -> in_origin p = OClock ->
  exists h, nget (in_inputs p) 0 = Some h /\ se_rows h = [].
Proof.
  intros A N I O. destruct (c_clock _ _ _ _ (after_contents _ _ _ _ _ A) _ _ I O) as (h & e0 & G & L & E). exists h. split; auto. rewrite E. destruct (Nat.eqb_spec index 0); [contradiction|auto].
Qed.
Print Assumptions c64_clock_once.
(** A generated source has each of its rows once, from the first time on, at one of the workers. *)
Theorem c64_generated peers cs n (sv : nat -> Server) (wk : nat -> Worker) (p : nat -> Installed) : peers <> 0 ->
  (forall i, i < peers -> after i peers cs (sv i) (wk i) /\ installed (sv i) n (p i) /\ in_origin (p i) = OGenerated) ->
  exists r (rows : nat -> list (row * nat * Z)) (made : nat -> row), recipe_parse n = Some r /\
    (forall i, i < peers -> exists h, nget (in_inputs (p i)) 0 = Some h /\ se_rows h = rows i) /\
    (forall e, e < rows_len r -> recipe_row r e = Some (made e)) /\
    Permutation (flat_map rows (seq 0 peers)) (map (fun e => (made e, 0, 1%Z)) (seq 0 (rows_len r))).
Proof.
  intros NZ H.
  assert (C : forall i, i < peers -> exists h r, nget (in_inputs (p i)) 0 = Some h /\ recipe_parse n = Some r /\
    Forall2 (fun e u => exists x, recipe_row r e = Some x /\ u = (x, 0, 1%Z)) (filter (fun e => e mod peers =? i) (seq 0 (rows_len r))) (se_rows h)).
  { intros i L. destruct (H i L) as (A & I & O). destruct (c_generated _ _ _ _ (after_contents _ _ _ _ _ A) _ _ I O) as (h & r & s & G & R & S & E).
    exists h, r. split; [auto|split; [auto|]]. destruct (shard_rows _ _ _ _ _ _ S) as (rows & E1 & F). cbn [new_session se_rows app] in E1. rewrite E, E1. auto. }
  destruct (C 0 ltac:(lia)) as (_ & r & _ & R & _).
  set (made := fun e => match recipe_row r e with Some x => x | None => (VTuple [], VTuple []) end).
  exists r, (fun i => match nget (in_inputs (p i)) 0 with Some h => se_rows h | None => [] end), made.
  assert (M : forall e, e < rows_len r -> recipe_row r e = Some (made e)).
  { intros e L. pose proof (Nat.mod_upper_bound e peers NZ) as B. destruct (C (e mod peers) B) as (h & r' & _ & R' & F). rewrite R in R'. injection R' as <-.
    assert (I : In e (filter (fun x => x mod peers =? e mod peers) (seq 0 (rows_len r)))) by (apply filter_In; split; [apply in_seq; lia|apply Nat.eqb_refl]).
    clear - I F. unfold made. induction F as [|a b l l' (x & X & _) F IH]; [destruct I|]. destruct I as [->|I]; [rewrite X; auto|auto]. }
  split; [auto|split; [|split; [auto|]]].
  - intros i L. destruct (C i L) as (h & _ & G & _). rewrite G. eauto.
  - assert (E : forall i, In i (seq 0 peers) -> match nget (in_inputs (p i)) 0 with Some h => se_rows h | None => [] end = map (fun e => (made e, 0, 1%Z)) (filter (fun e => e mod peers =? i) (seq 0 (rows_len r)))).
    { intros i I. apply in_seq in I. destruct (C i ltac:(lia)) as (h & r' & -> & R' & F). rewrite R in R'. injection R' as <-. clear - F. unfold made.
      induction F as [|a b l l' (x & X & ->) F IH]; [auto|]. cbn [map]. rewrite X, IH. auto. }
    etransitivity; [|apply Permutation_map, (split_by_residue peers _ NZ)]. rewrite flat_map_concat_map, (map_ext_in _ _ _ E), flat_map_concat_map, concat_map, map_map. reflexivity.
Qed.
Print Assumptions c64_generated.
(** Names of generated sources are equal just if what they generate is said to be. *)
Theorem c64_canonical a b r s : recipe_parse a = Some r -> recipe_parse b = Some s ->
  (canonical_source_name a = canonical_source_name b <-> r = s) /\ recipe_parse (canonical_source_name a) = Some r /\
  canonical_source_name (canonical_source_name a) = canonical_source_name a.
Proof.
  intros A B. assert (RA : recipe_parse (canonical_source_name a) = Some r) by (rewrite recipe_parse_canonical_name; auto).
  assert (RB : recipe_parse (canonical_source_name b) = Some s) by (rewrite recipe_parse_canonical_name; auto).
  split; [|split; [auto|apply canonical_name_idem]]. split; [intros E; congruence|]. intros <-. unfold canonical_source_name. rewrite A, B. auto.
Qed.
Print Assumptions c64_canonical.

(** ** Workers *)

(** Workers that are given the same commands have the same registry: what is published, what is installed, and
    what runs and reads what. *)
Theorem c64_workers next i j peers cs sv wk sv' wk' :
  serve cs server_new {| wk_index := i; wk_peers := peers; wk_next := next; wk_running := [] |} = Some (sv, wk) ->
  serve cs server_new {| wk_index := j; wk_peers := peers; wk_next := next; wk_running := [] |} = Some (sv', wk') ->
  sv_epoch sv = sv_epoch sv' /\ wk_next wk = wk_next wk' /\
  (forall t tr, published sv t tr <-> published sv' t tr) /\
  (forall id reads, running wk id reads <-> running wk' id reads) /\
  (forall n p, installed sv n p -> exists q, installed sv' n q /\ in_imports p = in_imports q /\ in_exports p = in_exports q /\
    in_dataflow p = in_dataflow q /\ in_origin p = in_origin q /\ forall k, nget (in_inputs p) k = None <-> nget (in_inputs q) k = None).
Proof.
  intros H H'. assert (A0 : alike server_new {| wk_index := i; wk_peers := peers; wk_next := next; wk_running := [] |} server_new {| wk_index := j; wk_peers := peers; wk_next := next; wk_running := [] |}).
  { unfold alike. repeat (split; [reflexivity|]). intros n. exact I. }
  destruct (serve_alike _ _ _ _ _ _ _ _ _ (inv_start _ _ _) (inv_start _ _ _) A0 H H') as (A1 & A2 & A3 & A4 & A5 & A6).
  split; [auto|split; [auto|split; [|split]]].
  - intros t tr. unfold published. rewrite A1. tauto.
  - intros id reads. unfold running. rewrite A5. tauto.
  - intros n p P. specialize (A6 n). unfold installed in *. rewrite P in A6. unfold alike_option in A6. destruct (sget (sv_programs sv') n) as [q|]; [|contradiction]. exists q. split; auto.
Qed.
Print Assumptions c64_workers.

(** ** Examples, and what does not hold *)
Definition ex_prog (imports : list Source) (exports : list string) : Scope :=
  MkScope "root" (map (fun s => {| im_name := "x"; im_from := s |}) imports) [] [] [] (map (fun n => {| ex_name := n; ex_value := RImport 0 |}) exports).
Definition ex_wk (i : nat) : Worker := {| wk_index := i; wk_peers := 2; wk_next := 5; wk_running := [] |}.
(** Two programs, one of which reads the other; rows, ticks, a peek and drops. *)
Definition ex_cmds : list Command :=
  [Install "a" (ex_prog [SInput 0] ["out"]); Install "b" (ex_prog [STrace "out"; STrace "clock"; STrace "iota:3"] ["more"]);
   Feed "a" 0 (VInt 7) (VInt 8) None 2%Z; Tick; Feed "a" 0 (VInt 7) (VInt 8) (Some 0) 1%Z; Tick; Peek "more" None; Drop "a"].
Example ex_apart : named_apart ex_cmds.
Proof. intros n root I. simpl in I. repeat (destruct I as [I|I]; [try discriminate I; injection I as <- <-; intros [H|[r H]]; vm_compute in H; discriminate H|]). destruct I. Qed.
Example ex_sensible : forall c, In c ex_cmds -> sensible c.
Proof.
  intros c I. simpl in I. repeat (destruct I as [<-|I]; [cbn; try exact Logic.I; intros im J; repeat (destruct J as [<-|J]; [cbn; try exact Logic.I; intros r H; vm_compute in H; try discriminate H; injection H as <-; exact Logic.I|]); destruct J|]). destruct I.
Qed.
Example ex_served : exists sv wk, after 0 2 ex_cmds sv wk /\ sv_epoch sv = 2 /\
  (exists p, installed sv "a" p) /\ in_use wk "out" /\ (exists p, installed sv "clock" p /\ in_origin p = OClock) /\ (exists p, installed sv "iota:3" p /\ in_origin p = OGenerated) /\
  (exists tr, published sv "more" tr /\ tr_since tr = 1) /\
  (exists sv' wk', dispatch (Drop "b") sv wk = Some (sv', wk', Done) /\ exists sv2 wk2, dispatch (Drop "a") sv' wk' = Some (sv2, wk2, Done)) /\
  dispatch (Drop "a") sv wk = Some (sv, wk, Refused).
Proof.
  eexists _, _. split; [exists 5; vm_compute; reflexivity|]. split; [reflexivity|].
  split; [eexists; vm_compute; reflexivity|]. split; [eexists 8, _, 5; split; [vm_compute; reflexivity|left; reflexivity]|].
  split; [eexists; split; vm_compute; reflexivity|]. split; [eexists; split; vm_compute; reflexivity|]. split; [eexists; split; vm_compute; reflexivity|].
  split; [eexists _, _; split; [vm_compute; reflexivity|eexists _, _; vm_compute; reflexivity]|]. vm_compute. reflexivity.
Qed.
Example ex_peeked : peek_rows 2 (Some (VInt 7)) [((VInt 7, VInt 8), 0, 2%Z); ((VInt 7, VInt 9), 2, 1%Z); ((VInt 6, VInt 8), 0, 1%Z); ((VInt 7, VInt 8), 1, (-1)%Z)] = [((VInt 7, VInt 8), 1%Z)].
Proof. vm_compute. reflexivity. Qed.
Example ex_same_recipe : canonical_source_name "random: edges=4,nodes=3" = canonical_source_name "random:nodes=+3,edges=04,seed=0".
Proof. vm_compute. reflexivity. Qed.

(** A program may be given the name of a source.  When the source is wanted, it takes the place of the program,
    which runs on and belongs to none: it can no longer be fed or dropped. *)
Theorem c64_owned_refuted : exists cs sv wk id reads t tr, after 0 1 cs sv wk /\ running wk id reads /\ published sv t tr /\ tr_dataflow tr = id /\
  ~ exists n p, installed sv n p /\ in_dataflow p = id.
Proof.
  exists [Install "clock" (ex_prog [SInput 0] ["out"]); Install "b" (ex_prog [STrace "clock"] ["more"])]. eexists _, _, 0, _, "out", _.
  split; [exists 0; vm_compute; reflexivity|]. split; [vm_compute; reflexivity|]. split; [vm_compute; reflexivity|]. split; [reflexivity|].
  intros (n & p & I & E). unfold installed in I. apply mget_in in I. vm_compute in I. destruct I as [I|[I|[]]]; injection I as <- <-; discriminate E.
Qed.
Print Assumptions c64_owned_refuted.
(** A program may be given another spelling of the name of a generated source.  It is there under that
    spelling, and no command can feed or drop it. *)
Theorem c64_named_refuted : exists cs sv wk n p, after 0 1 cs sv wk /\ installed sv n p /\ (forall t, In t (in_exports p) -> ~ in_use wk t) /\
  (forall name, canonical_source_name name <> n) /\ dispatch (Drop n) sv wk = Some (sv, wk, Refused).
Proof.
  exists [Install "iota:03" (ex_prog [SInput 0] ["out"])]. eexists _, _, "iota:03", _.
  split; [exists 0; vm_compute; reflexivity|]. split; [vm_compute; reflexivity|]. split; [|split].
  - intros t [<-|[]] (id & reads & pr & R & I). unfold running in R. apply mget_in in R. vm_compute in R. destruct R as [R|[]]. injection R as <- <-. destruct I.
  - intros name H. pose proof (canonical_name_idem name) as E. rewrite H in E. vm_compute in E. discriminate E.
  - vm_compute. reflexivity.
Qed.
Print Assumptions c64_named_refuted.
(** A generated source with fields of an empty range panics the worker that makes it. *)
Theorem c64_no_panic_refuted : exists c, dispatch c server_new {| wk_index := 0; wk_peers := 1; wk_next := 0; wk_running := [] |} = None.
Proof. exists (Install "a" (ex_prog [STrace "random:nodes=0,edges=1"] ["out"])). vm_compute. reflexivity. Qed.
Print Assumptions c64_no_panic_refuted.
