(** What the trace relies on from a batch type (the contract of the traits [Batch] and [Merger],
    trace/mod.rs:206-227 and 280-300), and the histories of calls a trace may receive. *)
From Verif Require Export Spec.Collection Model.SpineM.

Section Laws.
Context {B M D T R : Type} {OD : Ord D} {TT : Time T} {DR : Diff R}.
Variable ops : BatchOps B M T.
Variable contents : B -> list (D * T * R).

Definition lower_of (b : B) := d_lower (b_desc ops b).
Definition upper_of (b : B) := d_upper (b_desc ops b).
Definition since_of (b : B) := d_since (b_desc ops b).

(** The interval of a batch is well formed. *)
Definition spans (b : B) : Prop := antichain (lower_of b) /\ antichain (upper_of b) /\ forall t, beyond (upper_of b) t -> beyond (lower_of b) t.

(** [bl_ok b]: [b] is a batch as its type builds them.  [bl_merging m b1 b2 s r]: [m] is a merge of [b1]
    and [b2] under way, compacting to [s], that needs at most [r] more units of work. *)
Record BatchLaws := {
  bl_ok : B -> Prop;
  bl_merging : M -> B -> B -> list T -> nat -> Prop;
  (** the length is the number of updates *)
  bl_len : forall b, bl_ok b -> b_len ops b = length (contents b);
  (** there is an empty batch for every interval *)
  bl_empty : forall lo up, lo <> [] -> exists b, b_empty ops lo up = Some b /\ bl_ok b /\ contents b = [] /\
    lower_of b = lo /\ upper_of b = up /\ forall t, beyond (since_of b) t;
  (** batches with abutting intervals, compacted no further than the frontier, can be merged *)
  bl_begin : forall b1 b2 F, bl_ok b1 -> bl_ok b2 -> spans b1 -> spans b2 -> same_future (upper_of b1) (lower_of b2) -> lower_of b1 <> [] ->
    (forall t, beyond F t -> beyond (since_of b1) t /\ beyond (since_of b2) t) ->
    exists m s r, b_begin ops b1 b2 F = Some m /\ bl_merging m b1 b2 s r /\ r <= b_len ops b1 + b_len ops b2 /\
    (forall t, beyond s t -> beyond (since_of b1) t /\ beyond (since_of b2) t) /\ (forall t, beyond F t -> beyond s t);
  (** working never fails; more fuel than needed leaves some over; a call that leaves none over has spent
      what it was given; and when some is left over, the result is the union of the two batches, as seen
      from the compaction frontier *)
  bl_work : forall m b1 b2 s r fuel, bl_merging m b1 b2 s r ->
    exists m' rest, b_work ops m b1 b2 fuel = Some (m', rest) /\
      ((Z.of_nat r < fuel)%Z -> (0 < rest)%Z) /\
      ((rest <= 0)%Z -> exists r', bl_merging m' b1 b2 s r' /\ (Z.of_nat r' <= Z.of_nat r - fuel)%Z) /\
      ((0 < rest)%Z -> exists b, b_done ops m' = Some b /\
         bl_ok b /\ spans b /\ same_future (lower_of b) (lower_of b1) /\ same_future (upper_of b) (upper_of b2) /\ since_of b = s /\
         b_len ops b <= b_len ops b1 + b_len ops b2 /\
         alike s (contents b) (contents b1 ++ contents b2))
}.

(** A batch as a trace may receive it: its interval is not empty and well formed. *)
Record proper (laws : BatchLaws) (b : B) : Prop := {
  pr_ok : bl_ok laws b;
  pr_lower : antichain (lower_of b);
  pr_upper : antichain (upper_of b);
  pr_nonempty : lower_of b <> [];
  pr_le : forall t, beyond (upper_of b) t -> beyond (lower_of b) t;
  pr_lt : ~ same_future (lower_of b) (upper_of b)
}.

(** Histories of calls: [s_history l h up L P] says that the calls [l] insert the batches [h], leaving
    the trace at upper frontier [up], logical compaction frontier [L] and physical compaction frontier
    [P].  Each batch starts where the previous one ended, and is not compacted past the logical frontier;
    compaction frontiers only advance. *)
Inductive s_history (laws : BatchLaws) : list (s_op B T) -> list B -> list T -> list T -> list T -> Prop :=
| sh_nil : s_history laws [] [] [tmin] [tmin] [tmin]
| sh_insert : forall l h up L P b, s_history laws l h up L P -> proper laws b -> same_future (lower_of b) up ->
    (forall t, beyond L t -> beyond (since_of b) t) ->
    s_history laws (l ++ [SInsert b]) (h ++ [b]) (upper_of b) L P
| sh_close : forall l h up L P b, s_history laws l h up L P -> up <> [] -> b_empty ops up [] = Some b ->
    s_history laws (l ++ [SClose]) (h ++ [b]) [] L P
| sh_closed : forall l h L P, s_history laws l h [] L P -> s_history laws (l ++ [SClose]) h [] L P
| sh_exert : forall l h up L P answer, s_history laws l h up L P -> s_history laws (l ++ [SExert answer]) h up L P
| sh_logical : forall l h up L P F, s_history laws l h up L P -> (forall t, beyond F t -> beyond L t) ->
    s_history laws (l ++ [SSetLogical F]) h up F P
| sh_physical : forall l h up L P F, s_history laws l h up L P -> (forall t, beyond F t -> beyond P t) ->
    s_history laws (l ++ [SSetPhysical F]) h up L F.

(** Batches with abutting intervals, from [lo] to [up]. *)
Inductive tiles : list T -> list B -> list T -> Prop :=
| ti_nil : forall lo up, same_future lo up -> tiles lo [] up
| ti_cons : forall lo b h up, same_future lo (lower_of b) -> tiles (upper_of b) h up -> tiles lo (b :: h) up.

(** Every batch of a layer [k] holds at most [2^k] updates ([2^(k+1)] when just merged). *)
Definition layer_sized (k : nat) (x : mstate B M) : Prop :=
  match x with
  | Single (Some b) => b_len ops b <= 2 ^ k
  | InProgress b1 b2 _ => b_len ops b1 <= 2 ^ k /\ b_len ops b2 <= 2 ^ k
  | Complete (Some b) => b_len ops b <= 2 * 2 ^ k
  | _ => True
  end.
End Laws.
