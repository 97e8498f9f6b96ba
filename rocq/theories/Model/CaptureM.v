(** * Model of differential-dataflow/src/capture.rs

    Modelled: the messages, the deduplicating iterator [iterator::Iter] and the two writers of
    [sink::build].  [source::build], which distributes the iterator's logic over four dataflow operators,
    is in CaptureSourceM.v.  Not modelled: serialisation.
    Hash sets are duplicate free lists; the order in which a hash set is listed is not modelled. *)
From Verif Require Export Model.LatticeM Model.DescriptionM Model.ConsolidationM.

Section Capture.
Context {D T R : Type} {OD : Ord D} {TT : Time T} {OR : Ord R}.
Notation update := (D * T * R)%type.

(* capture.rs:35-43 *)
Record Progress := { p_lower : list T; p_upper : list T; p_counts : list (T * nat) }.
(* capture.rs:21-28 *)
Inductive message := Updates (us : list update) | Statement (p : Progress).

(** timely's [MutableAntichain] (timely 0.31, progress/frontier.rs): net counts of times, and the
    antichain of the least times with a positive count. *)
Definition ma_counts := list (T * Z).
Definition ma_update_iter (m : ma_counts) (changes : list (T * Z)) : ma_counts := m ++ changes.
Definition ma_frontier (m : ma_counts) : list T := ac_from (map fst (filter (fun x => (0 <? snd x)%Z) (consolidate m))).

(** ** iterator::Iter, capture.rs:73-211 *)
Record Iter := {
  it_updates : list update;
  it_reported : list T;
  it_progress : list T;
  it_messages : ma_counts;
  it_queue : list Progress
}.
(* 200-210 *)
Definition iter_new : Iter := {| it_updates := []; it_reported := [tmin]; it_progress := [tmin]; it_messages := []; it_queue := [] |}.

Definition contains (s : list update) (u : update) : bool := existsb (eqb u) s.
(* HashSet::extend *)
Definition set_extend (s us : list update) : list update := fold_left (fun s u => if contains s u then s else s ++ [u]) us s.

(* 127-139: receiving a message *)
Definition iter_receive (s : Iter) (m : message) : Iter :=
  match m with
  | Updates us =>
      let us := filter (fun u => ac_less_equal (it_reported s) (snd (fst u)) && negb (contains (it_updates s) u)) us in
      {| it_updates := set_extend (it_updates s) us; it_reported := it_reported s; it_progress := it_progress s;
         it_messages := ma_update_iter (it_messages s) (map (fun u => (snd (fst u), (-1)%Z)) us); it_queue := it_queue s |}
  | Statement p =>
      {| it_updates := it_updates s; it_reported := it_reported s; it_progress := it_progress s;
         it_messages := it_messages s; it_queue := it_queue s ++ [p] |}
  end.

(* Vec::position followed by Vec::remove *)
Fixpoint take_first {A} (f : A -> bool) (l : list A) : option (A * list A) :=
  match l with
  | [] => None
  | x :: l => if f x then Some (x, l) else match take_first f l with Some (y, r) => Some (y, x :: r) | None => None end
  end.
(* 145-174: one actionable statement *)
Definition iter_act (s : Iter) (p : Progress) (queue : list Progress) : Iter :=
  let counts := filter (fun x => ac_less_equal (it_progress s) (fst x)) (p_counts p) in
  let new_frontier := fold_left (fun up t1 => fold_left (fun up' t2 => ac_insert up' (join t1 t2)) (it_progress s) up) (p_upper p) [] in
  {| it_updates := it_updates s; it_reported := it_reported s; it_progress := new_frontier;
     it_messages := ma_update_iter (it_messages s) (map (fun x => (fst x, Z.of_nat (snd x))) counts);
     it_queue := filter (fun p => negb (ac_le (p_upper p) new_frontier)) queue |}.
(* 145-174: the loop; each round removes a statement, so the length of the queue bounds the rounds *)
Fixpoint iter_drain (fuel : nat) (s : Iter) : Iter :=
  match take_first (fun p => ac_le (p_lower p) (it_progress s)) (it_queue s) with
  | None => s
  | Some (p, queue) =>
      match fuel with
      | 0 => s
      | S fuel => iter_drain fuel (iter_act s p queue)
      end
  end.
(* 177-190: reporting *)
Definition iter_report (s : Iter) : Iter * option (list update * list T) :=
  let lower_bound := ac_extend (it_progress s) (ma_frontier (it_messages s)) in
  if negb (ac_eqb lower_bound (it_reported s)) then
    let to_publish := filter (fun u => negb (ac_less_equal lower_bound (snd (fst u)))) (it_updates s) in
    ({| it_updates := filter (fun u => ac_less_equal lower_bound (snd (fst u))) (it_updates s); it_reported := lower_bound;
        it_progress := it_progress s; it_messages := it_messages s; it_queue := it_queue s |}, Some (to_publish, lower_bound))
  else (s, None).
(* 126-191: one round of the outer loop *)
Definition iter_message (s : Iter) (m : message) : Iter * option (list update * list T) :=
  let s := iter_receive s m in
  iter_report (iter_drain (length (it_queue s)) s).
(* 119-193 next: reads messages until there is something to report *)
Fixpoint iter_next (s : Iter) (source : list message) : option ((list update * list T) * Iter * list message) :=
  match source with
  | [] => None
  | m :: source =>
      match iter_message s m with
      | (s, Some out) => Some (out, s, source)
      | (s, None) => iter_next s source
      end
  end.
(** calling [next] until it returns nothing *)
Fixpoint iter_all (s : Iter) (source : list message) : Iter * list (list update * list T) :=
  match source with
  | [] => (s, [])
  | m :: source =>
      match iter_message s m with
      | (s, Some out) => let (s, outs) := iter_all s source in (s, out :: outs)
      | (s, None) => iter_all s source
      end
  end.

(** ** sink::build, capture.rs:575-724 *)
(* 603-616 UpdatesWriter, one message received: it is queued for the sink, and counts of its times are sent
   on.  [ChangeBatch::drain] yields each time once, with its net count, if that is not zero. *)
Definition uw_receive (queue : list message) (us : list update) : list message * list (T * Z) :=
  (queue ++ [Updates us], consolidate (map (fun u => (snd (fst u), 1%Z)) us)).

(* 651-656 ProgressWriter: the last frontier announced, counts not yet announced, statements not yet sent *)
Record ProgressWriter := { pw_frontier : list T; pw_timestamps : list (T * Z); pw_queue : list message }.
Definition pw_new : ProgressWriter := {| pw_frontier := [tmin]; pw_timestamps := []; pw_queue := [] |}.
(* 702-711: sending from the queue as long as the sink accepts; [answers] are the results of its [poll]
   ([false]: retry later, [true]: success), and it accepts once they are used up *)
Fixpoint pw_send (answers : list bool) (queue : list message) : list message * list message :=
  match queue with
  | [] => ([], [])
  | m :: queue =>
      match answers with
      | false :: _ => ([], m :: queue)
      | true :: answers => let (sent, rest) := pw_send answers queue in (m :: sent, rest)
      | [] => let (sent, rest) := pw_send [] queue in (m :: sent, rest)
      end
  end.
(* 659-714: one activation, on the writing worker, with counts received, the input frontier, and the
   sink's answers.  Returns the messages the sink accepted. *)
Definition pw_step (s : ProgressWriter) (counts : list (T * Z)) (frontier : list T) (answers : list bool) : ProgressWriter * list message :=
  let timestamps := pw_timestamps s ++ counts in
  (* timely: less_than is less_equal and different *)
  if ac_le (pw_frontier s) frontier && negb (ac_eqb (pw_frontier s) frontier) then
    let drained := consolidate timestamps in
    let announce := filter (fun x => negb (ac_less_equal frontier (fst x))) drained in
    let retain := filter (fun x => ac_less_equal frontier (fst x)) drained in
    let p := {| p_lower := pw_frontier s; p_upper := frontier; p_counts := map (fun x => (fst x, Z.to_nat (snd x))) announce |} in
    let (sent, queue) := pw_send answers (pw_queue s ++ [Statement p]) in
    ({| pw_frontier := frontier; pw_timestamps := retain; pw_queue := queue |}, sent)
  else ({| pw_frontier := pw_frontier s; pw_timestamps := timestamps; pw_queue := pw_queue s |}, []).
(** a run of activations; each activation receives the counts of some updates *)
Fixpoint pw_run (s : ProgressWriter) (acts : list (list update * list T * list bool)) : ProgressWriter * list message :=
  match acts with
  | [] => (s, [])
  | (us, F, answers) :: acts =>
      let (s, sent) := pw_step s (snd (uw_receive [] us)) F answers in
      let (s, sent') := pw_run s acts in (s, sent ++ sent')
  end.
End Capture.
Arguments Iter : clear implicits. Arguments ma_counts : clear implicits. Arguments message : clear implicits. Arguments Progress : clear implicits. Arguments ProgressWriter : clear implicits.
