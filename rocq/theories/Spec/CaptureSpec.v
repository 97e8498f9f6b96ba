(** What captured messages may say about a set of updates. *)
From Verif Require Export Spec.Collection Model.CaptureM.

Section CaptureSpec.
Context {D T R : Type} {OD : Ord D} {TT : Time T} {OR : Ord R}.
Notation update := (D * T * R)%type.

(** how many of the updates are at time [t] *)
Definition count_at (us : list update) (t : T) : nat := length (filter (fun u => eqb (snd (fst u)) t) us).
(** A truthful progress statement about the updates [all]: for every time in the interval from its lower
    to its upper frontier at which there are updates, once, how many. *)
Definition truthful (all : list update) (p : Progress T) : Prop :=
  NoDup (map fst (p_counts p)) /\
  forall t c, In (t, c) (p_counts p) <-> beyond (p_lower p) t /\ ~ beyond (p_upper p) t /\ c = count_at all t /\ 0 < c.
(** A message about [all]: some of the updates, without repetition within the message, or a truthful
    statement.  Messages may repeat and overlap each other. *)
Definition message_about (all : list update) (m : message D T R) : Prop :=
  match m with Updates us => incl us all /\ NoDup us | Statement p => truthful all p end.
(** Statements that together reach from the minimum to the frontier [F]. *)
Inductive reaches (ms : list (message D T R)) : list T -> Prop :=
| re_start : reaches ms [tmin]
| re_step : forall F p, reaches ms F -> In (Statement p) ms -> (forall t, beyond F t -> beyond (p_lower p) t) -> reaches ms (p_upper p).
(** What a reader should see from the frontier [F] on: frontiers that advance strictly, and with each
    exactly the updates passed by that advance, each once. *)
Fixpoint reports (all : list update) (F : list T) (outs : list (list update * list T)) : Prop :=
  match outs with
  | [] => True
  | (us, G) :: outs =>
      (forall t, beyond G t -> beyond F t) /\ ~ same_future F G /\
      NoDup us /\ (forall u, In u us <-> In u all /\ beyond F (snd (fst u)) /\ ~ beyond G (snd (fst u))) /\
      reports all G outs
  end.
(** The last frontier reported. *)
Definition last_frontier (outs : list (list update * list T)) : list T := last (map snd outs) [tmin].
(** Activations of the writer of progress statements: the updates whose counts arrive, the frontier of
    the input, and the sink's answers.  [legal_activations F0 acts]: frontiers advance and updates do not
    arrive once the frontier has passed their times, as timely guarantees. *)
Fixpoint legal_activations (F0 : list T) (acts : list (list update * list T * list bool)) : Prop :=
  match acts with
  | [] => True
  | (us, F, _) :: acts => antichain F /\ Forall (fun u => beyond F0 (snd (fst u))) us /\ (forall t, beyond F t -> beyond F0 t) /\ legal_activations F acts
  end.
(** Statements that follow each other from [F] to [G]. *)
Fixpoint consecutive (F : list T) (ps : list (message D T R)) (G : list T) : Prop :=
  match ps with
  | [] => same_future F G
  | Statement p :: ps => same_future F (p_lower p) /\ consecutive (p_upper p) ps G
  | Updates _ :: _ => False
  end.
End CaptureSpec.
