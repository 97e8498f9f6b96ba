(** C21: the join operator, between two arranged inputs that change around it as StreamSpec allows, and
    activated at any moments, with any part of what is on the streams. *)
From Coq Require Import Relations.
From Verif Require Import Base.Arrays Base.Collections Model.OrdNeuM Proofs.SpineP Proofs.BilinearP Proofs.JoinDriverP Proofs.JoinTacticP Proofs.ReadableInstP
  Props.SpineProps.

(** ** For every tactic that joins the batches it is given *)
Section AnyTactic.
Context {B1 M1 B2 M2 K V1 V2 D T R1 R2 R3 W : Type} {OK : Ord K} {OV1 : Ord V1} {OV2 : Ord V2} {OD : Ord D} {TT : Time T}
  {D1 : Diff R1} {D2 : Diff R2} {D3 : Diff R3} {MU : Multiply R1 R2 R3}
  (ops1 : BatchOps B1 M1 T) (contents1 : B1 -> list (K * V1 * T * R1)) (laws1 : BatchLaws (D:=K*V1) ops1 contents1)
  (ops2 : BatchOps B2 M2 T) (contents2 : B2 -> list (K * V2 * T * R2)) (laws2 : BatchLaws (D:=K*V2) ops2 contents2)
  (tactic : JoinTactic B1 B2 T W (D * T * R3)) (result : K -> V1 -> V2 -> list D) (budget : Z) (h1 h2 : list T * list T).
Notation world := (jworld (B1:=B1) (M1:=M1) (B2:=B2) (M2:=M2) (D:=D) (T:=T) (R3:=R3) (W:=W)).
Notation reaches := (jreaches ops1 contents1 laws1 ops2 contents2 laws2 tactic budget h1 h2).

(** Neither creating the operator nor activating it panics. *)
Theorem c21_join_never_panics : joins ops1 contents1 laws1 ops2 contents2 laws2 tactic (MU:=MU) result ->
  (forall w0 : world, jstarts ops1 contents1 laws1 ops2 contents2 laws2 h1 h2 w0 ->
     exists j, j_start ops1 ops2 tactic (sd_spine (jw_in1 w0)) (sd_spine (jw_in2 w0)) h1 h2 tmin = Some j) /\
  (forall (w : world) msgs1 msgs2 F1 F2 s1' s2', reaches w -> delivers contents1 (jw_in1 w) msgs1 F1 s1' -> delivers contents2 (jw_in2 w) msgs2 F2 s2' ->
     exists j' outs, j_activate ops1 ops2 tactic budget (sd_spine (jw_in1 w)) (sd_spine (jw_in2 w)) msgs1 msgs2 F1 F2 (jw_join w) = Some (j', outs)).
Proof.
  intros TL. split.
  - intros w0 H0. destruct (starts_ok ops1 contents1 laws1 ops2 contents2 laws2 tactic result TL h1 h2 w0 H0) as (j & E & _). eauto.
  - intros w msgs1 msgs2 F1 F2 s1' s2' HR G1 G2.
    destruct (reaches_inv ops1 contents1 laws1 ops2 contents2 laws2 tactic result TL budget h1 h2 w HR) as (n & HI).
    destruct (activate_ok ops1 contents1 laws1 ops2 contents2 laws2 tactic result TL budget h1 h2 w n msgs1 msgs2 F1 F2 s1' s2' HI G1 G2) as (j' & outs & n' & E & _).
    eauto.
Qed.

(** At every time that both inputs are done with, and that no held capability could still write to, the
    updates produced accumulate to the join of everything the inputs ever held. *)
Theorem c21_join_accumulates : joins ops1 contents1 laws1 ops2 contents2 laws2 tactic (MU:=MU) result ->
  forall w : world, reaches w -> forall t, beyond (fst h1) t -> beyond (fst h2) t ->
  ~ beyond (sd_front (jw_in1 w)) t -> ~ beyond (sd_front (jw_in2 w)) t -> Forall (fun c => tle c t = false) (jheld (jw_join w)) ->
  forall d, acc (produced w) d t =
    acc (join_updates (MU:=MU) result (flat_map contents1 (sd_hist (jw_in1 w))) (flat_map contents2 (sd_hist (jw_in2 w)))) d t.
Proof. intros TL w HR t. exact (complete_ok ops1 contents1 laws1 ops2 contents2 laws2 tactic result TL budget h1 h2 w HR t). Qed.

(** Whatever the budget, activating the operator often enough, with no new input, leaves no work behind
    and so no capability held. *)
Theorem c21_join_drains : joins ops1 contents1 laws1 ops2 contents2 laws2 tactic (MU:=MU) result -> (0 <= budget)%Z ->
  forall w : world, reaches w -> exists w', clos_refl_trans _ (jstep ops1 contents1 laws1 ops2 contents2 laws2 tactic budget) w w' /\
    jw_in1 w' = jw_in1 w /\ jw_in2 w' = jw_in2 w /\ jheld (jw_join w') = [].
Proof.
  intros TL Hb w HR. destruct (reaches_inv ops1 contents1 laws1 ops2 contents2 laws2 tactic result TL budget h1 h2 w HR) as (n & HI).
  destruct (drains_ok ops1 contents1 laws1 ops2 contents2 laws2 tactic result TL budget h1 h2 Hb n w HI) as (w' & H1 & H2 & H3 & H4 & H5).
  exists w'. split; [auto|]. split; [auto|]. split; [auto|]. unfold jheld. rewrite H4, H5. auto.
Qed.

(** The operator respects progress: containers are shipped at a time at or before those of their updates;
    and the capabilities it ships at or retains are ones it held, or ones at or beyond an input's frontier. *)
Theorem c21_join_capabilities : joins ops1 contents1 laws1 ops2 contents2 laws2 tactic (MU:=MU) result ->
  forall w : world, reaches w -> Forall (fun o => all_after (fst o) (snd o)) (jw_out w) /\
  forall msgs1 msgs2 F1 F2 s1' s2' j' outs, delivers contents1 (jw_in1 w) msgs1 F1 s1' -> delivers contents2 (jw_in2 w) msgs2 F2 s2' ->
    j_activate ops1 ops2 tactic budget (sd_spine (jw_in1 w)) (sd_spine (jw_in2 w)) msgs1 msgs2 F1 F2 (jw_join w) = Some (j', outs) ->
    Forall (fun c => In c (jheld (jw_join w)) \/ beyond (sd_front (jw_in1 w)) c \/ beyond (sd_front (jw_in2 w)) c) (map fst outs ++ jheld j').
Proof.
  intros TL w HR. destruct (reaches_inv ops1 contents1 laws1 ops2 contents2 laws2 tactic result TL budget h1 h2 w HR) as (n & HI). split.
  - destruct HI as (accd1 & accd2 & css0 & css1 & _ & _ & _ & _ & _ & H & _). exact H.
  - intros msgs1 msgs2 F1 F2 s1' s2' j' outs G1 G2 E.
    destruct (activate_ok ops1 contents1 laws1 ops2 contents2 laws2 tactic result TL budget h1 h2 w n msgs1 msgs2 F1 F2 s1' s2' HI G1 G2) as (j2 & outs2 & n' & E2 & _ & _ & A1 & A2).
    rewrite E in E2. inversion E2; subst. apply Forall_app. split; [|exact A2]. rewrite Forall_map. exact A1.
Qed.
End AnyTactic.
Print Assumptions c21_join_never_panics.
Print Assumptions c21_join_accumulates.
Print Assumptions c21_join_drains.
Print Assumptions c21_join_capabilities.

(** The tactic of join_core, over batches of any kinds that can be read, joins them. *)
Theorem c21_cursor_tactic_joins : forall (B1 M1 C1 B2 M2 C2 K V1 V2 D T R1 R2 R3 : Type) (OK : Ord K) (OV1 : Ord V1) (OV2 : Ord V2) (OD : Ord D) (TT : Time T)
  (D1 : Diff R1) (D2 : Diff R2) (D3 : Diff R3) (MU : Multiply R1 R2 R3)
  (ops1 : BatchOps B1 M1 T) (contents1 : B1 -> list (K * V1 * T * R1)) (laws1 : BatchLaws (D:=K*V1) ops1 contents1)
  (ops2 : BatchOps B2 M2 T) (contents2 : B2 -> list (K * V2 * T * R2)) (laws2 : BatchLaws (D:=K*V2) ops2 contents2)
  (cops1 : CursorOps B1 C1 K V1 T R1) (new1 : C1) (cops2 : CursorOps B2 C2 K V2 T R2) (new2 : C2)
  (result : K -> V1 -> V2 -> list D) (preferred : nat) (alloc : nat -> nat), 1 <= preferred ->
  readable ops1 contents1 laws1 cops1 new1 -> readable ops2 contents2 laws2 cops2 new2 ->
  joins ops1 contents1 laws1 ops2 contents2 laws2 (cursor_tactic (MU:=MU) cops1 new1 (b_len ops1) cops2 new2 (b_len ops2) result preferred alloc) (MU:=MU) result.
Proof. intros. apply tactic_ok; auto. Qed.
Print Assumptions c21_cursor_tactic_joins.

(** ** Joining two arrangements of ord_neu batches, pairing the values
    Each pair of values under each key accumulates to the product of the accumulations of the inputs. *)
Section ValJoin.
Context {K V1 V2 T R1 R2 R3 : Type} {OK : Ord K} {OV1 : Ord V1} {OV2 : Ord V2} {TT : Time T}
  {D1 : Diff R1} {OR1 : Ord R1} {D2 : Diff R2} {OR2 : Ord R2} {D3 : Diff R3} {MU : Multiply R1 R2 R3}.
Definition val_tactic (preferred : nat) (alloc : nat -> nat) :=
  cursor_tactic (MU:=MU) (T:=T) (K:=K) (V1:=V1) (V2:=V2) ov_ops ovc_new ov_updates ov_ops ovc_new ov_updates paired preferred alloc.

Theorem c21_val_join : forall preferred alloc budget h1 h2, 1 <= preferred ->
  forall w, jreaches ov_batch_ops ov_contents ov_laws ov_batch_ops ov_contents ov_laws (val_tactic preferred alloc) budget h1 h2 w ->
  forall t, beyond (fst h1) t -> beyond (fst h2) t ->
  ~ beyond (sd_front (jw_in1 w)) t -> ~ beyond (sd_front (jw_in2 w)) t -> Forall (fun c => tle c t = false) (jheld (jw_join w)) ->
  forall k v1 v2, acc (produced w) (k, (v1, v2)) t =
    dmul (acc (flat_map ov_contents (sd_hist (jw_in1 w))) (k, v1) t) (acc (flat_map ov_contents (sd_hist (jw_in2 w))) (k, v2) t).
Proof.
  intros preferred alloc budget h1 h2 Hp w HR t A1 A2 N1 N2 Hc k v1 v2. rewrite <- (acc_join_paired (MU:=MU)).
  apply (c21_join_accumulates ov_batch_ops ov_contents ov_laws ov_batch_ops ov_contents ov_laws (val_tactic preferred alloc) paired budget h1 h2
    (tactic_ok ov_batch_ops ov_contents ov_laws ov_batch_ops ov_contents ov_laws ov_ops ovc_new ov_ops ovc_new paired preferred alloc Hp ov_readable ov_readable)); auto.
Qed.
End ValJoin.
Print Assumptions c21_val_join.

(** ** A concrete run: the first input has the history of SpineProps behind it, merged and compacted; the
    second receives a batch after the operator is created, and then closes. *)
Definition c21_b : OrdValBatch nat nat nat Z := c14_b [((1, 20, 2), 2%Z); ((1, 21, 5), 1%Z); ((2, 20, 4), 3%Z)] 0 [6].
Definition c21_tactic := val_tactic (K:=nat) (V1:=nat) (V2:=nat) (T:=nat) (R1:=Z) (R2:=Z) (R3:=Z) 2 (fun n => n).
Definition c21_side1 (F : list nat) : side (OrdValBatch nat nat nat Z) (OrdValMerger nat nat nat Z) nat :=
  {| sd_spine := match s_run ov_batch_ops (with_effort 1) c14_ops with Some s => s | None => with_effort 0 end;
     sd_hist := c14_h; sd_upper := [5]; sd_logical := [3]; sd_physical := [4]; sd_flight := []; sd_front := F |}.
Definition c21_side2 (bs q : list (OrdValBatch nat nat nat Z)) (up F : list nat) : side (OrdValBatch nat nat nat Z) (OrdValMerger nat nat nat Z) nat :=
  {| sd_spine := match s_run ov_batch_ops (with_effort 1) (map SInsert bs) with Some s => s | None => with_effort 0 end;
     sd_hist := bs; sd_upper := up; sd_logical := [0]; sd_physical := [0]; sd_flight := q; sd_front := F |}.
Definition c21_h1 : list nat * list nat := ([3], [4]).
Definition c21_h2 : list nat * list nat := ([0], [0]).
Definition c21_start := j_start ov_batch_ops ov_batch_ops c21_tactic (sd_spine (c21_side1 [5])) (sd_spine (c21_side2 [] [] [0] [0])) c21_h1 c21_h2 0.
Definition c21_next := j <- c21_start;
  j_activate ov_batch_ops ov_batch_ops c21_tactic 100 (sd_spine (c21_side1 [5])) (sd_spine (c21_side2 [c21_b] [c21_b] [6] [0]))
    [] [(2, [c21_b])] [6] [6] j.

Example c21_run : option_map snd c21_next = Some [(2, [((1, (11, 20)), 3, 2%Z); ((1, (11, 21)), 5, 1%Z)]); (2, [((2, (10, 20)), 4, 6%Z)])] /\
  option_map (fun x => jheld (fst x)) c21_next = Some [].
Proof. vm_compute. auto. Qed.

Example c21_reaches : exists w, jreaches ov_batch_ops ov_contents ov_laws ov_batch_ops ov_contents ov_laws c21_tactic 100 c21_h1 c21_h2 w /\
  sd_front (jw_in1 w) = [6] /\ sd_front (jw_in2 w) = [6] /\ sd_hist (jw_in1 w) = c14_h /\ sd_hist (jw_in2 w) = [c21_b] /\ jheld (jw_join w) = [] /\
  produced w = [((1, (11, 20)), 3, 2%Z); ((1, (11, 21)), 5, 1%Z); ((2, (10, 20)), 4, 6%Z)].
Proof.
  assert (HB : forall (a b t : nat), a <= b -> beyond [b] t -> beyond [a] t).
  { intros a b t Hab (f & [<-|[]] & Hf). exists a. split; [left; auto|]. eapply tle_trans; [|exact Hf]. apply nat_tle; auto. }
  destruct c21_run as [R1 R2]. destruct c21_next as [[j' outs]|] eqn:En; [|discriminate]. inversion R1; subst outs. cbn [option_map fst] in R2.
  unfold c21_next in En. destruct c21_start as [j|] eqn:Es; [|discriminate].
  set (w0 := {| jw_in1 := c21_side1 [5]; jw_in2 := c21_side2 [] [] [0] [0]; jw_join := j; jw_out := [] |} :
         jworld (D:=nat*(nat*nat)) (R3:=Z)).
  assert (G0 : jreaches ov_batch_ops ov_contents ov_laws ov_batch_ops ov_contents ov_laws c21_tactic 100 c21_h1 c21_h2 w0).
  { apply jr_start; [|exact Es]. unfold jstarts. cbn [w0 jw_in1 jw_in2 jw_out c21_side1 c21_side2 sd_logical sd_physical sd_upper fst snd c21_h1 c21_h2].
    split; [exists 1, c14_ops; split; [apply c14_history|split; [vm_compute; reflexivity|split; constructor]]|].
    split; [exists 1, []; split; [exact (sh_nil _ _ _)|split; [vm_compute; reflexivity|split; constructor]]|].
    split; [split; auto|]. split; [split; auto|]. split; [discriminate|]. split; [discriminate|]. split; [intros t; apply HB; lia|]. split; [auto|auto]. }
  set (w1 := {| jw_in1 := c21_side1 [5]; jw_in2 := c21_side2 [c21_b] [c21_b] [6] [0]; jw_join := j; jw_out := [] |} :
         jworld (D:=nat*(nat*nat)) (R3:=Z)).
  assert (G1 : jreaches ov_batch_ops ov_contents ov_laws ov_batch_ops ov_contents ov_laws c21_tactic 100 c21_h1 c21_h2 w1).
  { eapply jr_step; [exact G0|]. unfold w0, w1. apply js_env2.
    change [6] with (upper_of ov_batch_ops c21_b). apply (se_insert _ _ _ _ _ [] [0] [0] [0] [] [0] c21_b).
    - apply c14_b_proper; [|lia]. split; simpl; repeat constructor.
    - intros t. reflexivity.
    - intros t H. exact H.
    - vm_compute. repeat constructor; (exists 0; split; [left; reflexivity|reflexivity]).
    - vm_compute. reflexivity. }
  exists {| jw_in1 := c21_side1 [6]; jw_in2 := c21_side2 [c21_b] [] [6] [6]; jw_join := j'; jw_out := [] ++ [(2, [((1, (11, 20)), 3, 2%Z); ((1, (11, 21)), 5, 1%Z)]); (2, [((2, (10, 20)), 4, 6%Z)])] |}.
  split; [eapply jr_step; [exact G1|]; eapply js_activate; [| |exact En]|].
  - exists []. split; [reflexivity|]. split; [reflexivity|]. split; [constructor|]. split; [intros t; apply HB; lia|constructor].
  - exists []. split; [reflexivity|]. split; [reflexivity|]. split; [|split; [intros t; apply HB; lia|constructor]].
    constructor; [|constructor]. split; [exists 0; split; [left; reflexivity|reflexivity]|]. constructor; [|constructor]. vm_compute. repeat constructor.
  - cbn [jw_join]. inversion R2 as [Eh]. rewrite Eh. repeat split.
Qed.
