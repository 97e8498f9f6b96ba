(** What looking up prefixes should produce, and the runs of the operator. *)
From Verif Require Export Spec.StreamSpec Spec.CursorSpec Model.LookupM.

Section Lookups.
Context {K V P T R R2 D R3 : Type} {OK : Ord K} {OV : Ord V} {TT : Time T} {DR : Diff R} {D2 : Diff R2} {D3 : Diff R3}.
Variable key_selector : P -> K.
Variable output_func : P -> R -> V -> R2 -> D * R3.
(** The values a key has at a time. *)
Definition values_at (us : list (K * V * T * R2)) (k : K) (t : T) : list V :=
  filter (fun v => negb (is_zero (acc (D:=K*V) us (k, v) t))) (sort_set (map (fun u => snd (fst (fst u))) (filter (fun u => eqb (fst (fst (fst u))) k) us))).
(** A prefix is answered, at its time, for each value its key has then, with the multiplicity it has then. *)
Definition lookup (us : list (K * V * T * R2)) (p : P * T * R) : list (D * T * R3) :=
  let '(pre, t, r) := p in
  flat_map (fun v => let '(dout, rout) := output_func pre r v (acc (D:=K*V) us (key_selector pre, v) t) in if is_zero rout then [] else [(dout, t, rout)])
    (values_at us (key_selector pre) t).
Definition lookups (us : list (K * V * T * R2)) (ps : list (P * T * R)) : list (D * T * R3) := flat_map (lookup us) ps.
(** A prefix with no multiplicity gets no answers. *)
Definition quiet : Prop := forall pre v c, snd (output_func pre dzero v c) = dzero.
End Lookups.

Section Runs.
Context {B M C K V P T R R2 D R3 : Type} {OK : Ord K} {OV : Ord V} {TT : Time T} {DR : Diff R} {D2 : Diff R2} {D3 : Diff R3}.
Variable ops : BatchOps B M T. Variable contents : B -> list (K * V * T * R2). Variable laws : BatchLaws (D:=K*V) ops contents.
Variable cops : CursorOps B C K V T R2. Variable new : C.
Variable key_selector : P -> K.
Variable output_func : P -> R -> V -> R2 -> D * R3.
Local Notation prefix := (P * T * R)%type.
Local Notation update := (D * T * R3)%type.

(** The arranged input, the frontier of the stream of prefixes, the prefixes delivered so far, the operator, and
    what it has sent, each piece at the time of a capability. *)
Record lworld := { lw_in : side B M T; lw_front : list T; lw_asked : list prefix; lw_op : lstate P T R; lw_out : list (T * list update) }.
(** Prefixes come in messages that carry a time at or below their times. *)
Definition lk_timed (m : T * list prefix) : Prop := Forall (fun p => tle (fst m) (snd (fst p)) = true) (snd m).

Inductive lstep : lworld -> lworld -> Prop :=
(** something happens to the arranged input *)
| ls_env : forall s s' F a l o, side_env ops contents laws (l_trace l) s s' ->
    lstep {| lw_in := s; lw_front := F; lw_asked := a; lw_op := l; lw_out := o |} {| lw_in := s'; lw_front := F; lw_asked := a; lw_op := l; lw_out := o |}
(** the entries of a hash map come in any order *)
| ls_order : forall s F a stash stash' tr o, Permutation stash stash' ->
    lstep {| lw_in := s; lw_front := F; lw_asked := a; lw_op := {| l_stash := stash; l_trace := tr |}; lw_out := o |}
          {| lw_in := s; lw_front := F; lw_asked := a; lw_op := {| l_stash := stash'; l_trace := tr |}; lw_out := o |}
(** the operator is activated *)
| ls_activate : forall s s' F F' a l l' o msgs1 msgs2 F2 outs,
    delivers contents s msgs2 F2 s' ->
    Forall (fun m => beyond F (fst m) /\ lk_timed m) msgs1 -> (forall t, beyond F' t -> beyond F t) ->
    l_activate ops cops new key_selector output_func (sd_spine s) msgs1 F' F2 l = Some (l', outs) ->
    lstep {| lw_in := s; lw_front := F; lw_asked := a; lw_op := l; lw_out := o |}
          {| lw_in := s'; lw_front := F'; lw_asked := a ++ flat_map snd msgs1; lw_op := l'; lw_out := o ++ outs |}.

(** The operator is created over a trace with a past; the handle it is given holds back the compaction of the trace, to
    where the first prefixes need it. *)
Definition lstarts (handle : list T * list T) (w : lworld) : Prop :=
  (exists e, begins ops contents laws e (lw_in w)) /\ allowed (Some handle) (sd_logical (lw_in w)) (sd_physical (lw_in w)) /\
  (forall t, beyond (lw_front w) t -> beyond (fst handle) t) /\
  lw_asked w = [] /\ lw_op w = l_start handle /\ lw_out w = [].
Inductive lreaches (handle : list T * list T) : lworld -> Prop :=
| lr_start : forall w, lstarts handle w -> lreaches handle w
| lr_step : forall w w', lreaches handle w -> lstep w w' -> lreaches handle w'.

(** What was sent, the prefixes stashed, and all updates of the arranged input. *)
Definition l_produced (w : lworld) : list update := flat_map snd (lw_out w).
Definition l_owed (w : lworld) : list prefix := flat_map snd (l_stash (lw_op w)).
Definition l_input (w : lworld) : list (K * V * T * R2) := flat_map contents (sd_hist (lw_in w)).
End Runs.
Arguments lworld : clear implicits.
