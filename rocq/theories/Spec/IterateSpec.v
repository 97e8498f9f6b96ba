(** What a loop should compute. *)
From Verif Require Export Spec.LinearSpec Model.IterateM.
From Verif Require Import Proofs.LatticeP.

Section Iterate.
Context {D T R : Type} {OD : Ord D} {TT : Time T} {DR : Diff R}.
Local Notation inner := (T * nat)%type.
Local Notation message := (inner * list (D * inner * R))%type.

(** A function on collections, and its repeated application. *)
Fixpoint repeated (f : (D -> R) -> D -> R) (n : nat) (c : D -> R) : D -> R :=
  match n with 0 => c | S n => f (repeated f n c) end.
(** It sees nothing of a collection but the records' counts. *)
Definition extensional (f : (D -> R) -> D -> R) : Prop := forall c1 c2, (forall d, c1 d = c2 d) -> forall d, f c1 d = f c2 d.

(** The collection a stream holds at a time. *)
Definition at_time (s : stream inner (D * inner * R)) (t : inner) : D -> R := fun d => acc (updates s) d t.

(** Messages that can be sent: updates are not before their message, and iterations are [u64]s. *)
Definition sendable (max : nat) (m : message) : Prop :=
  Forall (fun u => tle (fst m) (snd (fst u)) = true /\ snd (snd (fst u)) <= max) (snd m).
Definition sent_by (max : nat) (e : loop_event D T R) : Prop := match e with LSource m | LBody m => sendable max m | _ => True end.

(** The body has said what it has to say about the collection at [u]: its result there is that of the
    function.  The body may read collections from outside the loop, so the function may depend on the outer time. *)
Definition answered (f : T -> (D -> R) -> D -> R) (s : Loop D T R) (u : inner) : Prop :=
  forall d, at_time (lp_result s) u d = f (fst u) (at_time (lp_collection s) u) d.
(** The collection has settled at [t]: no message waits on an edge that could change it there, and the body
    has answered at all the times that feed back to [t] or before. *)
Record settled (max step : nat) (f : T -> (D -> R) -> D -> R) (s : Loop D T R) (t : inner) : Prop := {
  st_to_collection : Forall (fun m => tle (fst m) t = false) (lp_to_collection s);
  st_to_feedback : Forall (fun m => match next_round max step (fst m) with Some t' => tle t' t = false | None => True end) (lp_to_feedback s);
  st_body : forall u u', next_round max step u = Some u' -> tle u' t = true -> answered f s u
}.
End Iterate.
