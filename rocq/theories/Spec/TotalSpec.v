(** The runs of count_total and threshold_total: an arrangement with totally ordered times, made along with
    the operator, which changes around the operator as StreamSpec says. *)
From Verif Require Export Spec.StreamSpec Spec.ReadableSpec Model.TotalM.

Section Total.
Context {B M C K T R X : Type} {OK : Ord K} {TT : Time T} {DR : Diff R}.
Variable ops : BatchOps B M T. Variable contents : B -> list (K * unit * T * R). Variable laws : BatchLaws (D:=K*unit) ops contents.
Variable cops : CursorOps B C K unit T R. Variable new : C.
Variable emit : K -> option R -> T -> R -> list X.

(** the updates of a batch are in its interval *)
Definition in_interval (b : B) : Prop :=
  Forall (fun u => beyond (lower_of ops b) (snd (fst u)) /\ ~ beyond (upper_of ops b) (snd (fst u))) (contents b).
(** A message carries batches, and its time is before the end of each of them; when messages are
    delivered, no empty batch is left behind on the stream. *)
Definition prompt (msgs : list (T * list B)) (sd' : side B M T) : Prop :=
  Forall (fun m => snd m <> [] /\ Forall (fun b => ~ beyond (upper_of ops b) (fst m)) (snd m)) msgs /\
  Forall (fun b => contents b <> []) (sd_flight sd').

Record tworld := { tw_in : side B M T; tw_op : tstate T; tw_out : list (T * list X) }.
Inductive tstep : tworld -> tworld -> Prop :=
| tw_env : forall s s' st o, side_env ops contents laws (Some (ts_handle st)) s s' -> Forall in_interval (sd_hist s') ->
    tstep {| tw_in := s; tw_op := st; tw_out := o |} {| tw_in := s'; tw_op := st; tw_out := o |}
| tw_activate : forall s s' st st' o msgs F outs,
    delivers contents s msgs F s' -> prompt msgs s' ->
    t_activate ops cops new emit (sd_spine s) msgs st = Some (st', outs) ->
    tstep {| tw_in := s; tw_op := st; tw_out := o |} {| tw_in := s'; tw_op := st'; tw_out := o ++ outs |}.

(** Nothing has been inserted yet; the handle the operator is given has not allowed anything to be
    forgotten altogether, nor any batches to be merged. *)
Definition tstarts (handle : list T * list T) (w : tworld) : Prop :=
  (exists e, begins ops contents laws e (tw_in w)) /\ sd_hist (tw_in w) = [] /\ sd_flight (tw_in w) = [] /\
  allowed (Some handle) (sd_logical (tw_in w)) (sd_physical (tw_in w)) /\ fst handle <> [] /\ (forall t, beyond (snd handle) t) /\
  tw_op w = t_start handle /\ tw_out w = [].
Inductive treaches (handle : list T * list T) : tworld -> Prop :=
| tr_start : forall w, tstarts handle w -> treaches handle w
| tr_step : forall w w', treaches handle w -> tstep w w' -> treaches handle w'.

(** Runs during which all differences on the stream and in the arrangement satisfy [P]. *)
Definition only (P : R -> Prop) (s : side B M T) : Prop :=
  Forall (fun b => Forall (fun u => P (snd u)) (contents b)) (sd_flight s ++ map_batches (sd_spine s)).
Inductive treaches_only (P : R -> Prop) (handle : list T * list T) : tworld -> Prop :=
| tro_start : forall w, tstarts handle w -> only P (tw_in w) -> treaches_only P handle w
| tro_step : forall w w', treaches_only P handle w -> tstep w w' -> only P (tw_in w') -> treaches_only P handle w'.
End Total.
Arguments tworld : clear implicits.
(** the updates produced *)
Definition t_produced {B M T X} (w : tworld B M T X) : list X := flat_map snd (tw_out w).
