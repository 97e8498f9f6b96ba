(** * Model of [source::build], differential-dataflow/src/capture.rs:221-549

    Four operators on each of [W] workers: MESSAGES reads a source of messages and spreads them, UPDATES
    removes duplicates and emits updates, PROGRESS works out how far all updates have arrived, FEEDBACK
    lets MESSAGES know.  Everything that may happen is an [action]: one activation of one operator of one
    worker, with the messages it receives then.

    Simplified: in-flight messages to UPDATES and PROGRESS are a list per receiver, from which an activation
    takes any, in any order (timely keeps the order between two workers); UPDATES receives at most one
    message per activation (several messages in one activation are several activations with the same
    frontier); hash functions are arbitrary functions.  The frontier timely shows to UPDATES is part of
    the action.  Re-activations (310-315, 537-543) and the token that ends the source (324-342) are not modelled: any
    activation may happen at any time. *)
From Verif Require Export Model.CaptureM.

Definition is_nil {A} (l : list A) : bool := match l with [] => true | _ => false end.

Section Source.
Context {D T R : Type} {OD : Ord D} {TT : Time T} {OR : Ord R}.
Notation update := (D * T * R)%type.
(* 300: scope.peers(); 370, 392, 446: the hash functions *)
Variable W : nat.
Variable hash_update : update -> nat.
Variable hash_time : T -> nat.
Definition worker_of_update (u : update) : nat := hash_update u mod W.
Definition worker_of_time (t : T) : nat := hash_time t mod W.

(* 455-458: the state of a PROGRESS operator *)
Record tracker := { tr_queue : list (Progress T); tr_progress : list T; tr_counts : ma_counts T; tr_reported : list T }.
Definition tr_new : tracker := {| tr_queue := []; tr_progress := [tmin]; tr_counts := []; tr_reported := [tmin] |}.

(** All workers' states and what is in flight between them. *)
Record state := {
  st_source : nat -> list (message D T R);        (* 315: what each MESSAGES operator has yet to read *)
  st_caps : nat -> list T;                        (* 329-330: the capabilities of MESSAGES, the same for both outputs *)
  st_updates : nat -> list (T * list update);     (* in flight to UPDATES: time of the message, updates *)
  st_pending : nat -> list ((D * T) * R);         (* 407: UPDATES *)
  st_shown : nat -> list T;                       (* the frontier last shown to UPDATES *)
  st_counts : nat -> list (list (T * Z));         (* in flight from UPDATES to PROGRESS *)
  st_progress : nat -> list (Progress T);         (* in flight from MESSAGES to PROGRESS *)
  st_tracker : nat -> tracker;
  st_feedback : nat -> nat -> list (list (T * Z)); (* in flight from PROGRESS to FEEDBACK, sender first, in order *)
  st_shared : nat -> ma_counts T;                 (* 304-307: shared by FEEDBACK and MESSAGES of a worker *)
  st_out : list (T * update)                      (* emitted: time of the message, update *)
}.
(* 304-305, 329-330, 407, 455-458 *)
Definition st_new (sources : nat -> list (message D T R)) : state :=
  {| st_source := sources; st_caps := fun _ => [tmin]; st_updates := fun _ => []; st_pending := fun _ => []; st_shown := fun _ => [tmin];
     st_counts := fun _ => []; st_progress := fun _ => []; st_tracker := fun _ => tr_new; st_feedback := fun _ _ => [];
     st_shared := fun _ => [(tmin, Z.of_nat W)]; st_out := [] |}.

Definition set_at {A} (f : nat -> A) (w : nat) (x : A) : nat -> A := fun v => if v =? w then x else f v.

(** timely's [CapabilitySet::downgrade]: panics unless every time is at or after one held *)
Definition caps_downgrade (caps F : list T) : option (list T) := if forallb (ac_less_equal caps) F then Some F else None.

(* 366-381: the part of a statement that goes to worker [k] *)
Definition share (k : nat) (p : Progress T) : Progress T :=
  {| p_lower := p_lower p; p_upper := p_upper p; p_counts := filter (fun x => worker_of_time (fst x) =? k) (p_counts p) |}.
(* 361-384: one message read, with [c] the first capability *)
Definition send_message (c : T) (s : state) (m : message D T R) : state :=
  match m with
  | Updates us =>
      {| st_source := st_source s; st_caps := st_caps s;
         st_updates := (fun k => let mine := filter (fun u => worker_of_update u =? k) us in if is_nil mine then st_updates s k else st_updates s k ++ [(c, mine)]);
         st_pending := st_pending s; st_shown := st_shown s; st_counts := st_counts s; st_progress := st_progress s; st_tracker := st_tracker s;
         st_feedback := st_feedback s; st_shared := st_shared s; st_out := st_out s |}
  | Statement p =>
      {| st_source := st_source s; st_caps := st_caps s; st_updates := st_updates s; st_pending := st_pending s; st_shown := st_shown s; st_counts := st_counts s;
         st_progress := (fun k => st_progress s k ++ [share k p]); st_tracker := st_tracker s;
         st_feedback := st_feedback s; st_shared := st_shared s; st_out := st_out s |}
  end.
(* 344-386: an activation of MESSAGES on worker [w] that reads up to [n] messages *)
Definition messages_step (s : state) (w n : nat) : option state :=
  caps <- caps_downgrade (st_caps s w) (ma_frontier (st_shared s w));
  let read := match caps with [] => 0 | _ => n end in
  let s' := {| st_source := set_at (st_source s) w (skipn read (st_source s w)); st_caps := set_at (st_caps s) w caps; st_updates := st_updates s;
               st_pending := st_pending s; st_shown := st_shown s; st_counts := st_counts s; st_progress := st_progress s; st_tracker := st_tracker s;
               st_feedback := st_feedback s; st_shared := st_shared s; st_out := st_out s |} in
  match caps with
  | [] => Some s'
  | c :: _ => Some (fold_left (send_message c) (firstn n (st_source s w)) s')
  end.

(* removing and returning the elements at some positions, one after the other *)
Fixpoint picks {A} (ks : list nat) (l : list A) : list A * list A :=
  match ks with
  | [] => ([], l)
  | k :: ks =>
      match nth_error l k with
      | None => picks ks l
      | Some x => let (taken, rest) := picks ks (firstn k l ++ skipn (S k) l) in (x :: taken, rest)
      end
  end.

(* HashMap::get *)
Definition lookup (pending : list ((D * T) * R)) (k : D * T) : option R :=
  option_map snd (find (fun x => eqb (fst x) k) pending).
(* 422-431: the updates of one message; returns the pending updates and those that are new.  Panics if an
   update is pending with another difference. *)
Fixpoint dedup_updates (F : list T) (pending : list ((D * T) * R)) (us : list update) : option (list ((D * T) * R) * list update) :=
  match us with
  | [] => Some (pending, [])
  | (d, t, r) :: us =>
      if ac_less_equal F t then
        match lookup pending (d, t) with
        | Some prior => if eqb prior r then dedup_updates F pending us else None
        | None => ' (pending, fresh) <- dedup_updates F (pending ++ [((d, t), r)]) us; Some (pending, (d, t, r) :: fresh)
        end
      else dedup_updates F pending us
  end.
(* 409-436: an activation of UPDATES on worker [w], shown the frontier [F], receiving the [k]-th message in flight, if there is one *)
Definition updates_step (s : state) (w : nat) (F : list T) (k : nat) : option state :=
  let pending := filter (fun x => ac_less_equal F (snd (fst x))) (st_pending s w) in
  match nth_error (st_updates s w) k with
  | None => Some {| st_source := st_source s; st_caps := st_caps s; st_updates := st_updates s; st_pending := set_at (st_pending s) w pending;
                    st_shown := set_at (st_shown s) w F; st_counts := st_counts s; st_progress := st_progress s; st_tracker := st_tracker s;
                    st_feedback := st_feedback s; st_shared := st_shared s; st_out := st_out s |}
  | Some (c, us) =>
      ' (pending, fresh) <- dedup_updates F pending us;
      let changes := consolidate (map (fun u => (snd (fst u), (-1)%Z)) fresh) in
      Some {| st_source := st_source s; st_caps := st_caps s; st_updates := set_at (st_updates s) w (firstn k (st_updates s w) ++ skipn (S k) (st_updates s w));
              st_pending := set_at (st_pending s) w pending; st_shown := set_at (st_shown s) w F;
              st_counts := (fun p => let mine := filter (fun x => worker_of_time (fst x) =? p) changes in if is_nil mine then st_counts s p else st_counts s p ++ [mine]);
              st_progress := st_progress s; st_tracker := st_tracker s; st_feedback := st_feedback s; st_shared := st_shared s;
              st_out := st_out s ++ map (fun u => (c, u)) fresh |}
  end.

(* 486-502: one actionable statement *)
Definition tr_act (s : tracker) (p : Progress T) (queue : list (Progress T)) : tracker :=
  let counts := filter (fun x => ac_less_equal (tr_progress s) (fst x)) (p_counts p) in
  let new_frontier := fold_left (fun up t1 => fold_left (fun up' t2 => ac_insert up' (join t1 t2)) (tr_progress s) up) (p_upper p) [] in
  {| tr_queue := queue; tr_progress := new_frontier; tr_counts := ma_update_iter (tr_counts s) (map (fun x => (fst x, Z.of_nat (snd x))) counts);
     tr_reported := tr_reported s |}.
(* 480-503: the loop; each round removes a statement, so the length of the queue bounds the rounds *)
Fixpoint tr_drain (fuel : nat) (s : tracker) : tracker :=
  match take_first (fun p => ac_le (p_lower p) (tr_progress s)) (tr_queue s) with
  | None => s
  | Some (p, queue) => match fuel with 0 => s | S fuel => tr_drain fuel (tr_act s p queue) end
  end.
(* 460-520: an activation of PROGRESS on worker [p], receiving the messages with counts and the statements at the given positions.
   Panics if the frontier changes although nothing was received. *)
Definition progress_step (s : state) (p : nat) (cs ps : list nat) : option state :=
  let (counts, counts_left) := picks cs (st_counts s p) in
  let (statements, statements_left) := picks ps (st_progress s p) in
  let t := st_tracker s p in
  let t := {| tr_queue := tr_queue t ++ statements; tr_progress := tr_progress t; tr_counts := ma_update_iter (tr_counts t) (concat counts); tr_reported := tr_reported t |} in
  let t := tr_drain (length (tr_queue t)) t in
  let lower_bound := ac_extend (tr_progress t) (ma_frontier (tr_counts t)) in
  let done (t : tracker) (feedback : nat -> nat -> list (list (T * Z))) :=
    {| st_source := st_source s; st_caps := st_caps s; st_updates := st_updates s; st_pending := st_pending s; st_shown := st_shown s;
       st_counts := set_at (st_counts s) p counts_left; st_progress := set_at (st_progress s) p statements_left;
       st_tracker := set_at (st_tracker s) p t; st_feedback := feedback; st_shared := st_shared s; st_out := st_out s |} in
  if ac_eqb lower_bound (tr_reported t) then Some (done t (st_feedback s))
  else if is_nil counts && is_nil statements then None
  else
    let changes := map (fun t => (t, 1%Z)) lower_bound ++ map (fun t => (t, (-1)%Z)) (tr_reported t) in
    Some (done {| tr_queue := tr_queue t; tr_progress := tr_progress t; tr_counts := tr_counts t; tr_reported := lower_bound |}
      (set_at (st_feedback s) p (fun q => st_feedback s p q ++ [changes]))).

(* 531-544: FEEDBACK on worker [q] receives the oldest message in flight from worker [p], if there is one *)
Definition feedback_one (q : nat) (s : state) (p : nat) : state :=
  match st_feedback s p q with
  | [] => s
  | changes :: rest =>
      {| st_source := st_source s; st_caps := st_caps s; st_updates := st_updates s; st_pending := st_pending s; st_shown := st_shown s;
         st_counts := st_counts s; st_progress := st_progress s; st_tracker := st_tracker s;
         st_feedback := set_at (st_feedback s) p (set_at (st_feedback s p) q rest);
         st_shared := set_at (st_shared s) q (ma_update_iter (st_shared s q) changes); st_out := st_out s |}
  end.
Definition feedback_step (s : state) (q : nat) (ps : list nat) : option state := Some (fold_left (feedback_one q) ps s).

(** One activation. *)
Inductive action :=
| AMessages (w n : nat)
| AUpdates (w : nat) (F : list T) (k : nat)
| AProgress (p : nat) (cs ps : list nat)
| AFeedback (q : nat) (ps : list nat).
Definition step (s : state) (a : action) : option state :=
  match a with
  | AMessages w n => messages_step s w n
  | AUpdates w F k => updates_step s w F k
  | AProgress p cs ps => progress_step s p cs ps
  | AFeedback q ps => feedback_step s q ps
  end.
Fixpoint run (s : state) (acts : list action) : option state :=
  match acts with
  | [] => Some s
  | a :: acts => s <- step s a; run s acts
  end.
End Source.
Arguments tracker : clear implicits. Arguments state : clear implicits. Arguments action : clear implicits.
