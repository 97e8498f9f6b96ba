(** What a batcher should do: hold a pile of updates; sealing at [upper] hands out, in canonical form,
    what is not at or beyond [upper] and retains the rest. *)
From Verif Require Export Spec.Collection.

Section BatcherSpec.
Context {D T R : Type} {OD : Ord D} {TT : Time T} {DR : Diff R}.
Local Notation U := (D * T * R)%type.

Definition time_of (u : U) : T := snd (fst u).

(** The client: pushes a chunk of updates, or seals with a frontier. *)
Inductive bop := OPush (chunk : list U) | OSeal (upper : list T).

Definition beyondb (F : list T) (t : T) : bool := existsb (fun f => tle f t) F.

(** One sealed batch: contents [out], interval [lower, upper), compaction frontier [since], and the
    frontier [fr] reported afterwards, given the updates [pending] held and the previous upper [lo]. *)
Record seals_correctly (pending : list U) (lo up : list T) (out : list U) (desc : list T * list T * list T) (fr : list T)
  : Prop := {
  sc_consolidated : consolidated (A:=D*T) out;
  sc_contents : forall d t, weight (A:=D*T) out (d, t) = if beyondb up t then dzero else weight (A:=D*T) pending (d, t);
  sc_description : desc = (lo, up, [tmin]);
  sc_frontier_antichain : antichain fr;
  sc_frontier : forall t, beyond fr t <->
     exists d t', tle t' t = true /\ beyondb up t' = true /\ weight (A:=D*T) pending (d, t') <> dzero
}.

(** A whole history. *)
Inductive history_correct : list U -> list T -> list bop -> list (list U * (list T * list T * list T) * list T) -> Prop :=
| hc_nil : forall pending lo, history_correct pending lo [] []
| hc_push : forall pending lo chunk ops outs,
    history_correct (pending ++ chunk) lo ops outs -> history_correct pending lo (OPush chunk :: ops) outs
| hc_seal : forall pending lo up out desc fr ops outs,
    seals_correctly pending lo up out desc fr ->
    history_correct (filter (fun u => beyondb up (time_of u)) pending) up ops outs ->
    history_correct pending lo (OSeal up :: ops) ((out, desc, fr) :: outs).
End BatcherSpec.
