(** The runs of the second form of the half join. *)
From Verif Require Export Spec.HalfJoinSpec Model.HalfJoin2M.

(** [comparison] follows the total order of times: it extends to what is earlier, and to later initial times. *)
Record follows_total_order {T} {TT : Time T} (comparison : T -> T -> bool) : Prop := {
  fo_earlier : forall f t i, le f t -> comparison t i = true -> comparison f i = true;
  fo_later : forall t i i', le i i' -> comparison t i = true -> comparison t i' = true
}.

Section Runs.
Context {B M C K V1 V2 D T R1 R2 R3 : Type} {OK : Ord K} {OV1 : Ord V1} {OV2 : Ord V2} {TT : Time T}
  {D1 : Diff R1} {D2 : Diff R2} {D3 : Diff R3} {MU : Multiply R1 R2 R3}.
Variable ops : BatchOps B M T. Variable contents : B -> list (K * V2 * T * R2). Variable laws : BatchLaws (D:=K*V2) ops contents.
Variable cops : CursorOps B C K V2 T R2. Variable new : C.
Variable frontier_func : T -> list T.
Variable comparison : T -> T -> bool.
Variable output_func : K -> V1 -> V2 -> D.
(** What the yield function may answer in an activation. *)
Variable may_answer : list bool -> Prop.
Local Notation proposal := (K * V1 * T * T * R1)%type.
Local Notation update := (D * T * T * R3)%type.

(** The arranged input, the frontier of the stream of proposals, the proposals delivered so far, the operator, and
    what it has sent, each piece at the time of a capability. *)
Record h2world := { h2w_in : side B M T; h2w_front : list T; h2w_asked : list proposal; h2w_op : h2state K V1 T R1; h2w_out : list (T * list update) }.

Inductive h2step : h2world -> h2world -> Prop :=
(** something happens to the arranged input *)
| h2s_env : forall s s' F a h o, side_env ops contents laws (h2_trace h) s s' ->
    h2step {| h2w_in := s; h2w_front := F; h2w_asked := a; h2w_op := h; h2w_out := o |} {| h2w_in := s'; h2w_front := F; h2w_asked := a; h2w_op := h; h2w_out := o |}
(** the operator is activated *)
| h2s_activate : forall s s' F F' a h h' o msgs1 msgs2 F2 ys outs again,
    delivers contents s msgs2 F2 s' ->
    Forall (fun m => beyond F (fst m) /\ well_timed m) msgs1 -> (forall t, beyond F' t -> beyond F t) -> may_answer ys ->
    h2_activate ops cops new frontier_func comparison output_func (MU:=MU) (sd_spine s) msgs1 F' F2 ys h = Some (h', outs, again) ->
    h2step {| h2w_in := s; h2w_front := F; h2w_asked := a; h2w_op := h; h2w_out := o |}
          {| h2w_in := s'; h2w_front := F'; h2w_asked := a ++ flat_map snd msgs1; h2w_op := h'; h2w_out := o ++ outs |}.

(** The operator is created over a trace with a past; the handle it is given holds back the compaction of the trace, to
    where the first proposals need it. *)
Definition h2starts (handle : list T * list T) (w : h2world) : Prop :=
  (exists e, begins ops contents laws e (h2w_in w)) /\ allowed (Some handle) (sd_logical (h2w_in w)) (sd_physical (h2w_in w)) /\
  (forall e t, In e (h2w_front w) -> beyond (frontier_func e) t -> beyond (fst handle) t) /\
  h2w_asked w = [] /\ h2w_op w = h2_start handle /\ h2w_out w = [].
Inductive h2reaches (handle : list T * list T) : h2world -> Prop :=
| h2r_start : forall w, h2starts handle w -> h2reaches handle w
| h2r_step : forall w w', h2reaches handle w -> h2step w w' -> h2reaches handle w'.

(** What was sent, the proposals kept back, and all updates of the arranged input. *)
Definition h2_produced (w : h2world) : list update := flat_map snd (h2w_out w).
Definition kept_back (h : h2state K V1 T R1) : list proposal := map proposal_of (flat_map b_data (h2_blobs h)).
Definition h2_input (w : h2world) : list (K * V2 * T * R2) := flat_map contents (sd_hist (h2w_in w)).
(** The times of the capabilities that the operator holds. *)
Definition capabilities (h : h2state K V1 T R1) : list T := flat_map b_caps (h2_blobs h).
End Runs.
Arguments h2world : clear implicits.
