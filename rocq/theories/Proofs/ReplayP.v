(** Histories under every interleaving of stepping and advancing. *)
From Coq Require Import Permutation Sorted.
From Verif Require Export Proofs.HistoryP.

Section ReplayP.
Context {V T R : Type} {OV : Ord V} {TT : Time T} {DR : Diff R}.
Local Notation update := (V * T * R)%type.

Lemma split_while_prefix (p : T -> bool) (rest : list update) :
  split_while p rest = (firstn (prefix_len (fun u => p (snd (fst u))) rest) rest, skipn (prefix_len (fun u => p (snd (fst u))) rest) rest).
Proof. induction rest as [|u rest IH]; simpl; auto. destruct (p (snd (fst u))); simpl; auto. rewrite IH; auto. Qed.

Lemma replays_length h (rest : list update) : replays h rest -> length (vh_history h) = length rest.
Proof. intros [H _ _]. induction H; simpl; auto. Qed.

Lemma vh_run_ok : forall ops h (rest buf : list update), replays h rest -> same_weights (A:=V*T) (vh_buffer h) buf ->
  match replay rest buf ops with
  | None => vh_run h ops = None
  | Some (rest', buf') => exists h', vh_run h ops = Some h' /\ replays h' rest' /\ same_weights (A:=V*T) (vh_buffer h') buf'
  end.
Proof.
  induction ops as [|o ops IH]; intros h rest buf H W.
  - simpl. exists h; auto.
  - assert (SW : forall p, exists b h', vh_step_while (length (vh_history h)) p h = Some (b, h') /\
       replays h' (snd (split_while p rest)) /\ same_weights (A:=V*T) (vh_buffer h') (buf ++ fst (split_while p rest))).
    { intros p. destruct (replays_step_while p (length (vh_history h)) h rest H) as (k & h' & E & K & B & D & R').
      - rewrite (replays_length _ _ H); auto.
      - exists (0 <? k), h'. rewrite split_while_prefix. cbn [fst snd]. subst k. split; [auto|]. split; [auto|].
        rewrite B. apply same_weights_app; auto. apply same_weights_refl. }
    destruct o as [|t|t|m]; cbn [replay vh_run vh_op].
    + destruct rest as [|u rest].
      * unfold vh_step. destruct H as [H _ _]. inversion H. auto.
      * destruct (replays_step _ _ _ H) as (h1 & E1 & B1 & D1 & R1). rewrite E1. apply IH; auto.
        rewrite B1. apply same_weights_app; auto. apply same_weights_refl.
    + destruct (SW (fun t' => eqb t' t)) as (b & h' & E & R' & W'). unfold vh_step_while_time_is. rewrite E.
      destruct (split_while _ rest). apply IH; auto.
    + destruct (SW (fun t' => leb t' t)) as (b & h' & E & R' & W'). unfold vh_step_through. rewrite E.
      destruct (split_while _ rest). apply IH; auto.
    + apply IH; [apply replays_advance; auto|]. cbn [vh_advance_buffer_by vh_buffer].
      eapply same_weights_trans; [apply consolidate_weight|].
      apply (map_same_weights (B:=V*T) (fun a => (fst a, join (snd a) m)) (vh_buffer h) buf W).
Qed.

Lemma split_while_app (p : T -> bool) (rest : list update) : let (a, b) := split_while p rest in rest = a ++ b.
Proof. induction rest as [|u rest IH]; simpl; auto. destruct (p (snd (fst u))); auto. destruct (split_while p rest). simpl; congruence. Qed.

(** the buffer accumulates, at times all advances are below, to what has been replayed *)
Lemma acc_advance (buf : list update) m v t : tle m t = true -> acc (map (advance_to m) buf) v t = acc buf v t.
Proof.
  intros H. induction buf as [|u buf IH]; auto. simpl. rewrite !acc_cons', IH. simpl. rewrite join_tle_b, H, andb_true_r. auto.
Qed.
Lemma replay_buffer : forall ops (rest buf rest' buf' : list update), replay rest buf ops = Some (rest', buf') ->
  exists done, rest = done ++ rest' /\
    forall v t, Forall (fun m => tle m t = true) (advances ops) -> acc buf' v t = acc (buf ++ done) v t.
Proof.
  assert (NX : forall rest rest' (buf buf' now done : list update) (F : T -> Prop), rest = done ++ rest' ->
    (forall v t, F t -> acc buf' v t = acc ((buf ++ now) ++ done) v t) ->
    exists done', now ++ rest = done' ++ rest' /\ forall v t, F t -> acc buf' v t = acc (buf ++ done') v t).
  { intros rest rest' buf buf' now done F -> H. exists (now ++ done). split; [rewrite app_assoc; auto|].
    intros; rewrite app_assoc; auto. }
  induction ops as [|o ops IH]; intros rest buf rest' buf' H.
  - inversion H; subst. exists []. split; auto. intros. rewrite app_nil_r; auto.
  - destruct o as [|t|t|m]; cbn [replay] in H.
    + destruct rest as [|u rest]; [discriminate|]. destruct (IH _ _ _ _ H) as (d & E & A).
      change (u :: rest) with ([u] ++ rest). eapply NX; eauto.
    + pose proof (split_while_app (fun t' => eqb t' t) rest) as S. destruct (split_while _ rest) as [now r].
      destruct (IH _ _ _ _ H) as (d & E & A). rewrite S. eapply NX; eauto.
    + pose proof (split_while_app (fun t' => leb t' t) rest) as S. destruct (split_while _ rest) as [now r].
      destruct (IH _ _ _ _ H) as (d & E & A). rewrite S. eapply NX; eauto.
    + destruct (IH _ _ _ _ H) as (d & E & A). exists d. split; auto. intros v t HF. cbn [advances flat_map app] in HF.
      apply Forall_cons_iff in HF. destruct HF as [Hm HF]. rewrite A; auto. rewrite !acc_app, acc_advance; auto.
Qed.

(** loading *)
Lemma load_iter_loop_ok adv : forall edits cur (el : EditList V T R) gs pend, el_rel el gs pend -> (cur = None -> pend = []) -> groups_ok gs ->
  exists el' gs', load_iter_loop edits adv cur el = Some el' /\ el_rel el' gs' [] /\ groups_ok gs' /\
    same_weights (A:=V*T) (ungroup gs') (ungroup gs ++ match cur with Some v => map (fun td => (v, fst td, snd td)) pend | None => [] end
                                    ++ map (fun u => (fst (fst u), advance_opt adv (snd (fst u)), snd u)) edits).
Proof.
  induction edits as [|[[v t] d] edits IH]; intros cur el gs pend H HP HG.
  - cbn [load_iter_loop map]. rewrite app_nil_r. destruct cur as [pv|].
    + destruct (el_seal_rel _ _ _ pv H) as (el' & E & R'). exists el', (sealed gs pv pend). split; [auto|]. split; [auto|].
      split; [apply sealed_ok; auto|]. apply sealed_weights.
    + rewrite HP in H by auto. exists el, gs. split; [auto|]. split; [auto|]. split; [auto|]. rewrite app_nil_r. apply same_weights_refl.
  - cbn [load_iter_loop map fst snd].
    assert (Go : forall el1 gs1 pend1, el_rel el1 gs1 pend1 -> groups_ok gs1 ->
      same_weights (A:=V*T) (ungroup gs1 ++ map (fun td => (v, fst td, snd td)) pend1)
         (ungroup gs ++ match cur with Some v => map (fun td => (v, fst td, snd td)) pend | None => [] end) ->
      exists el' gs', load_iter_loop edits adv (Some v) (el_push el1 (advance_opt adv t) d) = Some el' /\ el_rel el' gs' [] /\ groups_ok gs' /\
        same_weights (A:=V*T) (ungroup gs') (ungroup gs ++ match cur with Some v => map (fun td => (v, fst td, snd td)) pend | None => [] end
             ++ (v, advance_opt adv t, d) :: map (fun u => (fst (fst u), advance_opt adv (snd (fst u)), snd u)) edits)).
    { intros el1 gs1 pend1 H1 G1 W1. destruct (IH (Some v) _ _ _ (el_push_rel _ _ _ (advance_opt adv t) d H1) ltac:(discriminate) G1) as (el' & gs' & E & R' & G' & W).
      exists el', gs'. split; [auto|]. split; [auto|]. split; [auto|].
      eapply same_weights_trans; [exact W|]. rewrite map_app. simpl map.
      rewrite <- app_assoc, !app_assoc. rewrite <- (app_assoc _ [_]). simpl app.
      apply same_weights_app; [exact W1|apply same_weights_refl]. }
    destruct cur as [pv|].
    + destruct (eqb_spec pv v) as [->|N].
      * apply (Go el gs pend H HG). apply same_weights_refl.
      * destruct (el_seal_rel _ _ _ pv H) as (el' & E & R'). rewrite E. apply (Go el' _ _ R' (sealed_ok _ _ _ HG)).
        simpl. rewrite app_nil_r. apply sealed_weights.
    + rewrite HP in H by auto. apply (Go el gs [] H HG). simpl. apply same_weights_refl.
Qed.

Lemma el_rel_map_total (el : EditList V T R) gs : el_rel el gs [] -> el_map el = Some (ungroup gs).
Proof. apply el_map_rel. Qed.

Lemma load_iter_ok (edits : list update) adv : exists h us, load_iter edits adv = Some h /\ el_map (vh_edits h) = Some us /\
  vh_build (vh_edits h) = Some h /\
  same_weights (A:=V*T) us (map (fun u => (fst (fst u), advance_opt adv (snd (fst u)), snd u)) edits).
Proof.
  destruct (load_iter_loop_ok adv edits None el_new [] [] (el_new_rel) ltac:(auto) ltac:(constructor)) as (el & gs & E & R' & G & W).
  pose proof (el_map_rel _ _ R') as M. destruct (vh_build_ok _ _ M) as (h & us' & B & _ & D & _ & _).
  exists h, (ungroup gs). unfold load_iter. rewrite E, D. repeat split; auto.
Qed.
End ReplayP.

(** ** TimeHistory *)
Section TimeReplayP.
Context {T : Type} {TT : Time T}.

Fixpoint th_meets_ok (l : list (T * T)) : Prop :=
  match l with [] => True | x :: l' => (forall m, tle m (snd x) = true <-> Forall (fun y => tle m (fst y) = true) l) /\ th_meets_ok l' end.
Lemma th_suffix_ok l : Forall (fun x : T * T => snd x = fst x) l ->
  th_meets_ok (th_suffix_meets l) /\ map fst (th_suffix_meets l) = map fst l.
Proof.
  induction 1 as [|[t m] l Hx HF [IH1 IH2]]; [split; simpl; auto|]. simpl in Hx. subst m. cbn [th_suffix_meets].
  destruct (th_suffix_meets l) as [|[t' m'] l'] eqn:E.
  - split; [|simpl; f_equal; auto]. split; simpl; auto. intros m. split; [constructor; auto|]. intros H; inversion H; auto.
  - split; [|simpl in *; f_equal; auto]. destruct IH1 as [I1 I2]. split; [|split; auto].
    intros m. cbn [snd]. rewrite tle_meet, Forall_cons_iff. cbn [fst]. rewrite <- (I1 m). cbn [snd]. tauto.
Qed.

(** the times yet to be replayed *)
Record th_replays (h : TimeHistory T) (rest : list T) : Prop := {
  tr_times : map fst (th_history h) = rest;
  tr_meets : th_meets_ok (th_history h);
  tr_sorted : StronglySorted le rest
}.
Lemma osort_pairs (l : list T) : map fst (osort (map (fun t => (t, t)) l)) = osort l.
Proof.
  induction l as [|t l IH]; auto. unfold osort in *. cbn [map fold_right]. rewrite <- IH.
  assert (HF : Forall (fun x : T * T => snd x = fst x) (fold_right oinsert [] (map (fun t => (t, t)) l))).
  { change (fold_right oinsert [] ?x) with (osort x). eapply Permutation_Forall; [symmetry; apply osort_perm|].
    apply Forall_forall. intros x Hx. apply in_map_iff in Hx. destruct Hx as (? & <- & _). auto. }
  clear IH. induction HF as [|[a b] r Hx HF IHr]; auto. simpl in Hx; subst b. cbn [oinsert map fst].
  assert (E : leb (t, t) (a, a) = leb t a).
  { unfold leb. cbn. unfold pair_cmp. cbn. destruct (cmp t a) eqn:C; auto. }
  rewrite E. destruct (leb t a); cbn [map fst]; auto. f_equal; auto.
Qed.
Lemma th_load_ok times adv : th_replays (th_load times adv) (osort (map (advance_opt adv) times)).
Proof.
  unfold th_load. set (l := osort _).
  assert (HF : Forall (fun x : T * T => snd x = fst x) l).
  { eapply Permutation_Forall; [symmetry; apply osort_perm|]. apply Forall_forall. intros x Hx. apply in_map_iff in Hx. destruct Hx as (? & <- & _). auto. }
  destruct (th_suffix_ok l HF) as [M E]. split; cbn [th_history]; auto; [|apply osort_sorted].
  rewrite E. unfold l. rewrite <- osort_pairs, map_map. auto.
Qed.
Lemma th_step_ok t : forall hist buf rest, th_replays {| th_history := hist; th_buffer := buf |} rest ->
  let n := prefix_len (fun t' => eqb t' t) rest in
  fst (th_step_loop hist buf t) = (0 <? n) /\ th_buffer (snd (th_step_loop hist buf t)) = buf ++ firstn n rest /\
  th_replays (snd (th_step_loop hist buf t)) (skipn n rest).
Proof.
  induction hist as [|[t' m'] hist IH]; intros buf rest [H M S]; cbn [th_history] in *; subst rest; cbn [map fst prefix_len th_step_loop].
  - simpl. rewrite app_nil_r. repeat split; auto.
  - destruct (eqb t' t) eqn:E.
    + inversion S; subst. destruct (IH (buf ++ [t']) (map fst hist)) as (A & B & C); [split; auto; apply M|].
      cbn [fst snd firstn skipn]. split; [auto|]. split; [rewrite B, <- app_assoc; auto|auto].
    + cbn. rewrite app_nil_r. split; [auto|]. split; [auto|]. split; auto.
Qed.

(** what a client sees: the times in order, the buffer as a set *)
Fixpoint th_spec (rest buffer : list T) (ops : list (T + T)) : list T * list T :=
  match ops with
  | [] => (rest, buffer)
  | inl t :: ops => let n := prefix_len (fun t' => eqb t' t) rest in th_spec (skipn n rest) (buffer ++ firstn n rest) ops
  | inr m :: ops => th_spec rest (map (fun t => join t m) buffer) ops
  end.
Lemma th_run_ok : forall ops h rest buf, th_replays h rest -> (forall x, In x (th_buffer h) <-> In x buf) ->
  th_replays (th_run h ops) (fst (th_spec rest buf ops)) /\ forall x, In x (th_buffer (th_run h ops)) <-> In x (snd (th_spec rest buf ops)).
Proof.
  induction ops as [|[t|m] ops IH]; intros h rest buf H B; [simpl; auto| |].
  - destruct h as [hist b]. destruct (th_step_ok t _ _ _ H) as (_ & S2 & S3). cbn [th_run th_spec]. unfold th_step_while_time_is. cbn [th_history th_buffer] in *.
    apply IH; auto. intros x. rewrite S2, !in_app_iff, B. tauto.
  - cbn [th_run th_spec]. apply IH.
    + destruct H as [H1 H2 H3]. split; auto.
    + intros x. cbn [th_advance_buffer_by th_buffer]. rewrite dedup_osort_in, !in_map_iff.
      split; intros (y & E & Hy); exists y; (split; [auto|apply B; auto]).
Qed.
Lemma th_replays_time h rest : th_replays h rest -> th_time h = hd_error rest.
Proof. intros [<- _ _]. unfold th_time. destruct (th_history h); auto. Qed.
Lemma th_replays_meet h rest : th_replays h rest ->
  match th_meet h with
  | Some m => rest <> [] /\ forall m', tle m' m = true <-> Forall (fun t => tle m' t = true) rest
  | None => rest = []
  end.
Proof.
  intros [<- M _]. unfold th_meet. destruct (th_history h) as [|x l]; [reflexivity|]. destruct M as [M _]. cbn [hd_error option_map].
  split; [discriminate|]. intros m'. rewrite M, Forall_map. reflexivity.
Qed.
End TimeReplayP.
