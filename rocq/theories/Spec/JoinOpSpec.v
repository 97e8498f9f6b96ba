(** What the join operator asks of its tactic, and the runs of the operator: its inputs change around it as
    StreamSpec says, limited by the operator's handles on the traces; every now and then it is activated,
    with some of the batches on the streams and the current frontiers. *)
From Verif Require Export Spec.StreamSpec Spec.JoinSpec Model.JoinDriverM.

Section JoinOp.
Context {B1 M1 B2 M2 K V1 V2 D T R1 R2 R3 W : Type} {OK : Ord K} {OV1 : Ord V1} {OV2 : Ord V2} {OD : Ord D} {TT : Time T}
  {D1 : Diff R1} {D2 : Diff R2} {D3 : Diff R3} {MU : Multiply R1 R2 R3}.
Variable ops1 : BatchOps B1 M1 T. Variable contents1 : B1 -> list (K * V1 * T * R1). Variable laws1 : BatchLaws (D:=K*V1) ops1 contents1.
Variable ops2 : BatchOps B2 M2 T. Variable contents2 : B2 -> list (K * V2 * T * R2). Variable laws2 : BatchLaws (D:=K*V2) ops2 contents2.
Variable tactic : JoinTactic B1 B2 T W (D * T * R3).
Variable result : K -> V1 -> V2 -> list D.

(** The containers a unit of work hands out before it ends. *)
Inductive hands_out : W -> list (list (D * T * R3)) -> Prop :=
| ho_end : forall w w', jt_next tactic w = Some (w', None) -> hands_out w []
| ho_more : forall w w' c cs, jt_next tactic w = Some (w', Some c) -> hands_out w' cs -> hands_out w (c :: cs).

(** All updates are at times at or beyond [t]. *)
Definition all_after {X} (t : T) (us : list (X * T * R3)) : Prop := Forall (fun u => tle t (snd (fst u)) = true) us.

(** The tactic: prepared from any batches, the fresh ones after the time given, it produces their join in
    non-empty containers, after that time. *)
Definition joins : Prop :=
  forall bs1 bs2 (fresh1 : bool) m, Forall (bl_ok _ _ laws1) bs1 -> Forall (bl_ok _ _ laws2) bs2 ->
    (if fresh1 then Forall (fun u => tle m (snd (fst u)) = true) (flat_map contents1 bs1)
     else Forall (fun u => tle m (snd (fst u)) = true) (flat_map contents2 bs2)) ->
    exists w cs, jt_prep tactic bs1 bs2 fresh1 m = Some w /\ hands_out w cs /\
      Forall (fun c => c <> []) cs /\ Forall (all_after m) cs /\
      same_weights (A:=D*T) (concat cs) (join_updates (MU:=MU) result (flat_map contents1 bs1) (flat_map contents2 bs2)).

(** The operator among its inputs, and the containers it has produced, each at the time of a capability. *)
Record jworld := { jw_in1 : side B1 M1 T; jw_in2 : side B2 M2 T; jw_join : jstate (T:=T) (W:=W); jw_out : list (T * list (D * T * R3)) }.

Variable budget : Z.
Inductive jstep : jworld -> jworld -> Prop :=
| js_env1 : forall s1 s1' s2 j o, side_env ops1 contents1 laws1 (js_trace (j_side1 j)) s1 s1' ->
    jstep {| jw_in1 := s1; jw_in2 := s2; jw_join := j; jw_out := o |} {| jw_in1 := s1'; jw_in2 := s2; jw_join := j; jw_out := o |}
| js_env2 : forall s1 s2 s2' j o, side_env ops2 contents2 laws2 (js_trace (j_side2 j)) s2 s2' ->
    jstep {| jw_in1 := s1; jw_in2 := s2; jw_join := j; jw_out := o |} {| jw_in1 := s1; jw_in2 := s2'; jw_join := j; jw_out := o |}
| js_activate : forall s1 s1' s2 s2' j j' o msgs1 msgs2 F1 F2 outs,
    delivers contents1 s1 msgs1 F1 s1' -> delivers contents2 s2 msgs2 F2 s2' ->
    j_activate ops1 ops2 tactic budget (sd_spine s1) (sd_spine s2) msgs1 msgs2 F1 F2 j = Some (j', outs) ->
    jstep {| jw_in1 := s1; jw_in2 := s2; jw_join := j; jw_out := o |} {| jw_in1 := s1'; jw_in2 := s2'; jw_join := j'; jw_out := o ++ outs |}.

(** The operator is created over two traces with a past; the handles it is given hold back the compaction
    of the traces, and have not been advanced beyond what is in them. *)
Definition jstarts (h1 h2 : list T * list T) (w : jworld) : Prop :=
  (exists e, begins ops1 contents1 laws1 e (jw_in1 w)) /\ (exists e, begins ops2 contents2 laws2 e (jw_in2 w)) /\
  allowed (Some h1) (sd_logical (jw_in1 w)) (sd_physical (jw_in1 w)) /\ allowed (Some h2) (sd_logical (jw_in2 w)) (sd_physical (jw_in2 w)) /\
  fst h1 <> [] /\ fst h2 <> [] /\
  (forall t, beyond (sd_upper (jw_in1 w)) t -> beyond (snd h1) t) /\ (forall t, beyond (sd_upper (jw_in2 w)) t -> beyond (snd h2) t) /\
  jw_out w = [].
Inductive jreaches (h1 h2 : list T * list T) : jworld -> Prop :=
| jr_start : forall w, jstarts h1 h2 w ->
    j_start ops1 ops2 tactic (sd_spine (jw_in1 w)) (sd_spine (jw_in2 w)) h1 h2 tmin = Some (jw_join w) -> jreaches h1 h2 w
| jr_step : forall w w', jreaches h1 h2 w -> jstep w w' -> jreaches h1 h2 w'.

(** The capabilities held for deferred work. *)
Definition jheld (j : jstate (T:=T) (W:=W)) : list T := map fst (j_todo0 j ++ j_todo1 j).
(** The updates produced. *)
Definition produced (w : jworld) : list (D * T * R3) := flat_map snd (jw_out w).
End JoinOp.
