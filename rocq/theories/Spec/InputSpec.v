(** What the calls of an input session say, without any buffering. *)
From Verif Require Export Spec.Collection Model.InputM.

Section InputSpec.
Context {D T R : Type} {TT : Time T}.
Notation update := (D * T * R)%type.
(** The updates stated by a sequence of calls that starts at time [now], each at its stated time; [None]
    if a call goes back in time. *)
Fixpoint stated (now : T) (cs : list (s_call D T R)) : option (T * list update) :=
  match cs with
  | [] => Some (now, [])
  | CUpdate _ _ d r :: cs => ' (e, us) <- stated now cs; Some (e, (d, now, r) :: us)
  | CUpdateAt _ _ d t r :: cs => if tle now t then ' (e, us) <- stated now cs; Some (e, (d, t, r) :: us) else None
  | CFlush _ :: cs => stated now cs
  | CAdvanceTo t :: cs => if tle now t then stated t cs else None
  end.
(** All updates told to the dataflow. *)
Definition delivered (l : list (told D T R)) : list update := flat_map (fun x => match x with Message _ us => us | _ => [] end) l.
(** A legal conversation with the dataflow, whose input is at time [now]: messages are sent at that time
    and carry updates at or after it; the time only advances; nothing follows closing. *)
Inductive legal_told : T -> list (told D T R) -> T -> Prop :=
| lt_nil : forall now, legal_told now [] now
| lt_message : forall now us l e, us <> [] -> Forall (fun u => tle now (snd (fst u)) = true) us -> legal_told now l e -> legal_told now (Message now us :: l) e
| lt_advance : forall now t l e, tlt now t = true -> legal_told t l e -> legal_told now (Advanced t :: l) e
| lt_close : forall now, legal_told now [Closed] now.
End InputSpec.
