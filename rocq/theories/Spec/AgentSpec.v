(** Legal histories of a shared trace, its writer and its listeners, and what should hold of them. *)
From Verif Require Export Spec.BatchLaws Model.AgentM.

Section AgentSpec.
Context {B M D T R : Type} {OD : Ord D} {TT : Time T} {DR : Diff R}.
Variable ops : BatchOps B M T.
Variable contents : B -> list (D * T * R).
Variable laws : BatchLaws ops contents.

(** What is asked of the one who writes: batches are well formed, follow each other, are not compacted,
    and come with a time at or below those of their updates, if there are any, which is not below the
    batch's interval.  Handles may be used in any way. *)
Definition legal (w : World B M T) (c : command B T) : Prop :=
  match c, w_writer w with
  | CInsert b hint, Some up =>
      proper ops contents laws b /\ same_future (lower_of ops b) up /\ (forall t, beyond (since_of ops b) t) /\
      match hint with
      | Some h => beyond (lower_of ops b) h /\ Forall (fun u => tle h (snd (fst u)) = true) (contents b)
      | None => contents b = []
      end
  | CSeal up', Some up => antichain up' /\ (forall t, beyond up' t -> beyond up t)
  | _, _ => True
  end.
Fixpoint legal_run (w : World B M T) (l : list (command B T)) : Prop :=
  match l with
  | [] => True
  | c :: l => legal w c /\ forall w' bs, w_step ops w c = Some (w', bs) -> legal_run w' l
  end.

(** the writer's upper frontier; once it is dropped, the empty one *)
Definition w_upper (w : World B M T) : list T := match w_writer w with Some up => up | None => [] end.

(** instructions for batches inserted with hints *)
Definition announce (bs : list (B * option T)) : list (instruction B T) :=
  flat_map (fun x => [IBatch (fst x) (snd x); IFrontier (upper_of ops (fst x))]) bs.
Definition batches_of (is : list (instruction B T)) : list B := flat_map (fun i => match i with IBatch b _ => [b] | IFrontier _ => [] end) is.
(** the last frontier among instructions *)
Definition frontier_of (is : list (instruction B T)) : list T := fold_left (fun F i => match i with IBatch _ _ => F | IFrontier G => G end) is [tmin].
End AgentSpec.
