(** How a vector of coordinates is read: coordinates beyond the end are the minimum; and what a path
    summary means. *)
From Verif Require Export Base.Lattice.

Definition coord {T} {TT : Time T} (v : list T) (i : nat) : T := nth i v tmin.
(** No trailing minimum. *)
Definition minimal {T} {TT : Time T} (v : list T) : Prop := forall r x, v = r ++ [x] -> x <> tmin.

(** What timely asks of path summaries over times [T]; [None] is "no such time". *)
Record summary_laws {T S} {TT : Time T} (results_in : S -> T -> option T) (followed_by : S -> S -> option S)
    (s_le : S -> S -> bool) (s_default : S) : Prop := {
  sl_compose : forall s1 s2 t,
    match followed_by s1 s2 with
    | Some s => results_in s t = match results_in s1 t with Some u => results_in s2 u | None => None end
    | None => match results_in s1 t with Some u => results_in s2 u | None => None end = None
    end;
  sl_mono : forall s t t' u', tle t t' = true -> results_in s t' = Some u' ->
    exists u, results_in s t = Some u /\ tle u u' = true;
  sl_le : forall s s' t u', s_le s s' = true -> results_in s' t = Some u' ->
    exists u, results_in s t = Some u /\ tle u u' = true;
  sl_extensive : forall s t u, results_in s t = Some u -> tle t u = true;
  sl_default : forall t, results_in s_default t = Some t
}.

(** What applying a summary does to coordinate [i]. *)
Definition coord_action {T S} {TT : Time T} (results_in : S -> T -> option T) (retain : option nat) (actions : list S)
    (v : list T) (i : nat) : option T :=
  let c := match retain with Some r => if i <? r then coord v i else tmin | None => coord v i end in
  match nth_error actions i with Some a => results_in a c | None => Some c end.
