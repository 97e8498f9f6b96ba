(** Vocabulary for the operators on collections. *)
From Verif Require Export Spec.Collection Spec.JoinSpec Model.CollectionM.

Section Linear.
Context {D T R : Type} {TT : Time T}.
(** the updates carried by a stream *)
Definition updates (s : stream T (D * T * R)) : list (D * T * R) := flat_map snd s.
(** each update is at or after the time of the message it travels in: what makes it legal to send *)
Definition well_timed (s : stream T (D * T * R)) : Prop :=
  Forall (fun m => Forall (fun u => tle (fst m) (snd (fst u)) = true) (snd m)) s.
(** [ds] lists, without repetition, at least the records that occur *)
Definition covers (ds : list D) (c : list (D * T * R)) : Prop := NoDup ds /\ Forall (fun u => In (fst (fst u)) ds) c.
End Linear.

(** What an inner timestamp has to do with the outer one: entering is the least inner time over the outer
    one, and leaving recovers it. *)
Definition refines {T1 T2} {TT1 : Time T1} {TT2 : Time T2} (rf : RefinesOps T1 T2) : Prop :=
  (forall t u, tle (to_inner rf t) u = tle t (to_outer rf u)) /\ (forall t, to_outer rf (to_inner rf t) = t) /\
  (forall t u, tle t u = true -> tle (to_outer rf t) (to_outer rf u) = true).

(** Keep the records with the given key. *)
Definition semi {K V} (k : K) (v : V) (_ : unit) : list (K * V) := [(k, v)].
