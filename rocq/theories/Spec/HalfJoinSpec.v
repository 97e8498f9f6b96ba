(** What a half join should produce, and the runs of the operator. *)
From Verif Require Export Spec.StreamSpec Spec.JoinSpec Model.HalfJoinM.

Section Answers.
Context {K V1 V2 D T R1 R2 R3 : Type} {OK : Ord K} {TT : Time T}
  {D1 : Diff R1} {D2 : Diff R2} {D3 : Diff R3} {MU : Multiply R1 R2 R3}.
Variable comparison : T -> T -> bool.
Variable output_func : K -> V1 -> V2 -> D.
(** A proposal is answered with each update of its key that comes before its initial time, as [comparison] tells. *)
Definition answer (p : K * V1 * T * T * R1) (u : K * V2 * T * R2) : list (D * T * T * R3) :=
  let '(k1, v1, t1, initial, r1) := p in
  let '(k2, v2, t2, r2) := u in
  if eqb k1 k2 && comparison t2 initial then [(output_func k1 v1 v2, join t2 t1, initial, dmul r1 r2)] else [].
Definition answers (ps : list (K * V1 * T * T * R1)) (us : list (K * V2 * T * R2)) : list (D * T * T * R3) :=
  flat_map (fun p => flat_map (answer p) us) ps.

(** What is asked of the functions: [comparison] extends to earlier times; and at or beyond what [frontier_func] inserts for
    a time, what comes before times that are not told apart there, it does not tell apart either, for initial times at or after that time. *)
Record compatible (frontier_func : T -> list T) : Prop := {
  cf_earlier : forall f t i, tle f t = true -> comparison t i = true -> comparison f i = true;
  cf_covers : forall e, beyond (frontier_func e) e;
  cf_monotone : forall e e', tle e e' = true -> forall t, beyond (frontier_func e') t -> beyond (frontier_func e) t;
  cf_respects : forall e i t t', tle e i = true -> indistinct (frontier_func e) t t' -> comparison t i = comparison t' i
}.
End Answers.

Section Runs.
Context {B M C K V1 V2 D T R1 R2 R3 : Type} {OK : Ord K} {OV1 : Ord V1} {OV2 : Ord V2} {TT : Time T}
  {D1 : Diff R1} {D2 : Diff R2} {D3 : Diff R3} {MU : Multiply R1 R2 R3}.
Variable ops : BatchOps B M T. Variable contents : B -> list (K * V2 * T * R2). Variable laws : BatchLaws (D:=K*V2) ops contents.
Variable cops : CursorOps B C K V2 T R2. Variable new : C.
Variable frontier_func : T -> list T.
Variable comparison : T -> T -> bool.
Variable output_func : K -> V1 -> V2 -> D.
Local Notation proposal := (K * V1 * T * T * R1)%type.
Local Notation update := (D * T * T * R3)%type.

(** The arranged input, the frontier of the stream of proposals, the proposals delivered so far, the operator, and
    what it has sent, each piece at the time of a capability. *)
Record hworld := { hw_in : side B M T; hw_front : list T; hw_asked : list proposal; hw_op : hstate K V1 T R1; hw_out : list (T * list update) }.

(** Proposals come in messages that carry a time at or below their initial times, which are at or below their own times. *)
Definition well_timed (m : T * list proposal) : Prop :=
  Forall (fun p => tle (fst m) (snd (fst p)) = true /\ tle (snd (fst p)) (snd (fst (fst p))) = true) (snd m).

Inductive hstep : hworld -> hworld -> Prop :=
(** something happens to the arranged input *)
| hs_env : forall s s' F a h o, side_env ops contents laws (h_trace h) s s' ->
    hstep {| hw_in := s; hw_front := F; hw_asked := a; hw_op := h; hw_out := o |} {| hw_in := s'; hw_front := F; hw_asked := a; hw_op := h; hw_out := o |}
(** the entries of a hash map come in any order *)
| hs_order : forall s F a stash stash' tr o, Permutation stash stash' ->
    hstep {| hw_in := s; hw_front := F; hw_asked := a; hw_op := {| h_stash := stash; h_trace := tr |}; hw_out := o |}
          {| hw_in := s; hw_front := F; hw_asked := a; hw_op := {| h_stash := stash'; h_trace := tr |}; hw_out := o |}
(** the operator is activated *)
| hs_activate : forall s s' F F' a h h' o msgs1 msgs2 F2 ys outs again,
    delivers contents s msgs2 F2 s' ->
    Forall (fun m => beyond F (fst m) /\ well_timed m) msgs1 -> (forall t, beyond F' t -> beyond F t) ->
    h_activate ops cops new frontier_func comparison output_func (MU:=MU) (sd_spine s) msgs1 F' F2 ys h = Some (h', outs, again) ->
    hstep {| hw_in := s; hw_front := F; hw_asked := a; hw_op := h; hw_out := o |}
          {| hw_in := s'; hw_front := F'; hw_asked := a ++ flat_map snd msgs1; hw_op := h'; hw_out := o ++ outs |}.

(** The operator is created over a trace with a past; the handle it is given holds back the compaction of the trace, to
    where the first proposals need it. *)
Definition hstarts (handle : list T * list T) (w : hworld) : Prop :=
  (exists e, begins ops contents laws e (hw_in w)) /\ allowed (Some handle) (sd_logical (hw_in w)) (sd_physical (hw_in w)) /\
  (forall e t, In e (hw_front w) -> beyond (frontier_func e) t -> beyond (fst handle) t) /\
  hw_asked w = [] /\ hw_op w = h_start handle /\ hw_out w = [].
Inductive hreaches (handle : list T * list T) : hworld -> Prop :=
| hr_start : forall w, hstarts handle w -> hreaches handle w
| hr_step : forall w w', hreaches handle w -> hstep w w' -> hreaches handle w'.

(** What was sent, the proposals stashed, and all updates of the arranged input. *)
Definition h_produced (w : hworld) : list update := flat_map snd (hw_out w).
Definition h_owed (w : hworld) : list proposal := flat_map snd (h_stash (hw_op w)).
Definition h_input (w : hworld) : list (K * V2 * T * R2) := flat_map contents (sd_hist (hw_in w)).
End Runs.
Arguments hworld : clear implicits.
