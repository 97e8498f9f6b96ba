(** What it means that a batch holds a list of updates. *)
From Verif Require Export Spec.Presents.

(** Reading the batch with a cursor, in any legal way, shows the updates grouped by key and value; and
    listing it from start to end ([Cursor::to_vec]) gives the very list. *)
Definition reads_as {St C K V T R} {OK : Ord K} {OV : Ord V} (ops : CursorOps St C K V T R)
    (st : St) (c0 : C) (us : list (K * V * T * R)) : Prop :=
  presents ops st c0 (trie_of us) /\
  forall fuel vfuel, length us <= fuel -> length us <= vfuel ->
    exists vec, to_vec ops fuel vfuel st c0 = Some vec /\ flat_vec vec = us.

(** [us] is the compaction of [us0] to the frontier [F]: sorted and consolidated, with the same
    updates as [us0], each at a time indistinct from its own at or beyond [F] (so with the same accumulations there), and with all times as advanced as they can be
    (no two distinct times of [us] are indistinguishable beyond [F], unless [F] is empty). *)
Definition compaction_of {D T R} {OD : Ord D} {TT : Time T} {DR : Diff R} (F : list T) (us0 us : list (D * T * R)) : Prop :=
  consolidated (A:=D*T) us /\ alike F us us0 /\
  (F <> [] -> forall u1 u2, In u1 us -> In u2 us ->
     (forall t, beyond F t -> tle (snd (fst u1)) t = tle (snd (fst u2)) t) -> snd (fst u1) = snd (fst u2)) /\
  (forall u, In u us -> exists u0, In u0 us0 /\ fst (fst u0) = fst (fst u) /\ tle (snd (fst u0)) (snd (fst u)) = true).
