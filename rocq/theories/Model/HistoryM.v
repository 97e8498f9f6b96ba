(** * Model of differential-dataflow/src/operators/mod.rs: edit lists and time-ordered replay, and of
    [TimeHistory], operators/common.rs:27-95.  [None] is a panic. *)
From Verif Require Export Base.Arrays Base.Lattice Spec.ReplaySpec Model.ConsolidationM Model.CursorM.

(** [slice.sort()] on values of a total order. *)
Section Sort.
Context {A : Type} {OA : Ord A}.
Fixpoint oinsert (x : A) (l : list A) : list A :=
  match l with [] => [x] | y :: l' => if leb x y then x :: l else y :: oinsert x l' end.
Definition osort (l : list A) : list A := fold_right oinsert [] l.
(** [Vec::dedup]: of adjacent equal elements the first is kept. *)
Fixpoint dedup_go (x : A) (l : list A) : list A :=
  match l with [] => [x] | y :: l => if eqb x y then dedup_go x l else x :: dedup_go y l end.
Definition dedup (l : list A) : list A := match l with [] => [] | x :: l => dedup_go x l end.
End Sort.

(** [lower .. upper] *)
Definition range (lower upper : nat) : list nat := seq lower (upper - lower).

Section History.
Context {V T R : Type} {OV : Ord V} {TT : Time T} {DR : Diff R}.

(** ** EditList, operators/mod.rs:24-90 *)
(* 24-27 *)
Record EditList := { el_values : list (V * nat); el_edits : list (T * R) }.
(* 32-37 new; 61-64 clear *)
Definition el_new : EditList := {| el_values := []; el_edits := [] |}.
(* 65 len *)
Definition el_len (el : EditList) : nat := length (el_edits el).
(* 68-71 push *)
Definition el_push (el : EditList) (t : T) (d : R) : EditList :=
  {| el_values := el_values el; el_edits := el_edits el ++ [(t, d)] |}.
(* 74-80 seal *)
Definition el_seal (el : EditList) (v : V) : option EditList :=
  let prev := last (map snd (el_values el)) 0 in
  if prev <=? length (el_edits el) then
    let edits := consolidate_from (el_edits el) prev in
    Some {| el_values := if prev <? length edits then el_values el ++ [(v, length edits)] else el_values el;
            el_edits := edits |}
  else None.
(* the bounds of the edits of a value: 83-84 and 160-161 *)
Definition el_bounds (el : EditList) (index : nat) : option (nat * nat) :=
  lower <- (if index =? 0 then Some 0 else x <- get (el_values el) (index - 1); Some (snd x));
  x <- get (el_values el) index;
  Some (lower, snd x).
(* 81-89 map: the calls of [logic], in order *)
Definition el_map (el : EditList) : option (list (V * T * R)) :=
  ls <- mapM (fun index =>
          ' (lower, upper) <- el_bounds el index;
          x <- get (el_values el) index;
          mapM (fun e => td <- get (el_edits el) e; Some (fst x, fst td, snd td)) (range lower upper))
        (seq 0 (length (el_values el)));
  Some (concat ls).

(* the time as pushed by the loaders, 51-52, 191, cursor/mod.rs:153-154 *)
Definition advance_opt (meet : option T) (t : T) : T := match meet with Some m => join t m | None => t end.
Definition el_push_all (meet : option T) (el : EditList) (l : list (T * R)) : EditList :=
  fold_left (fun el td => el_push el (advance_opt meet (fst td)) (snd td)) l el.

Section Load.
Context {St C K : Type} {OK : Ord K}.
Variable ops : CursorOps St C K V T R.
(* 49-57 the loop of load, and cursor/mod.rs:150-158 that of populate_key; run for at most [fuel] rounds *)
Fixpoint el_load_loop (fuel : nat) (st : St) (c : C) (meet : option T) (el : EditList) : option (C * EditList) :=
  vo <- c_get_val ops st c;
  match vo with
  | None => Some (c, el)
  | Some v =>
      match fuel with
      | 0 => None
      | S fuel =>
          ts <- c_map_times ops st c;
          el <- el_seal (el_push_all meet el ts) v;
          c <- c_step_val ops st c;
          el_load_loop fuel st c meet el
      end
  end.
(* 44-58 load *)
Definition el_load (fuel : nat) (st : St) (c : C) (meet : option T) : option (C * EditList) :=
  el_load_loop fuel st c meet el_new.
(* cursor/mod.rs:145-161 populate_key *)
Definition populate_key (fuel : nat) (st : St) (c : C) (key : K) (meet : option T) : option (C * EditList) :=
  c <- c_seek_key ops st c key;
  ko <- c_get_key ops st c;
  match ko with
  | Some k => if eqb k key then c <- c_rewind_vals ops st c; el_load_loop fuel st c meet el_new else Some (c, el_new)
  | None => Some (c, el_new)
  end.
End Load.

(** ** ValueHistory, operators/mod.rs:97-233 *)
(* 97-101.  The Rust vector [history] is kept sorted in decreasing order and consumed from its end; here
   the list is in the opposite order and consumed from its head. *)
Record ValueHistory := { vh_edits : EditList; vh_history : list (T * T * nat * nat); vh_buffer : list (V * T * R) }.
(* 105-111 new; 113-117 clear *)
Definition vh_new : ValueHistory := {| vh_edits := el_new; vh_history := []; vh_buffer := [] |}.

(* 170: each entry's meet becomes the meet with all entries replayed later *)
Fixpoint suffix_meets (l : list (T * T * nat * nat)) : list (T * T * nat * nat) :=
  match l with
  | [] => []
  | (t, m, vi, ei) :: l =>
      match suffix_meets l with
      | [] => [(t, m, vi, ei)]
      | (t', m', vi', ei') :: l' => (t, meet m m', vi, ei) :: (t', m', vi', ei') :: l'
      end
  end.
(* 156-171 build *)
Definition vh_build (el : EditList) : option ValueHistory :=
  ls <- mapM (fun value_index =>
          ' (lower, upper) <- el_bounds el value_index;
          mapM (fun edit_index => td <- get (el_edits el) edit_index; Some (fst td, fst td, value_index, edit_index))
            (range lower upper))
        (seq 0 (length (el_values el)));
  Some {| vh_edits := el; vh_history := suffix_meets (osort (concat ls)); vh_buffer := [] |}.

(* 183-196 load_iter *)
Fixpoint load_iter_loop (edits : list (V * T * R)) (advance_by : option T) (cur : option V) (el : EditList) : option EditList :=
  match edits with
  | [] => match cur with Some pv => el_seal el pv | None => Some el end
  | (v, t, d) :: edits =>
      el <- (match cur with
             | Some pv => if eqb pv v then Some el else el_seal el pv
             | None => Some el
             end);
      load_iter_loop edits advance_by (Some v) (el_push el (advance_opt advance_by t) d)
  end.
Definition load_iter (edits : list (V * T * R)) (advance_by : option T) : option ValueHistory :=
  el <- load_iter_loop edits advance_by None el_new; vh_build el.

(* 201-207 time, meet, edit *)
Definition vh_time (h : ValueHistory) : option T := option_map (fun x => fst (fst (fst x))) (hd_error (vh_history h)).
Definition vh_meet (h : ValueHistory) : option T := option_map (fun x => snd (fst (fst x))) (hd_error (vh_history h)).
Definition vh_resolve (h : ValueHistory) (x : T * T * nat * nat) : option (V * T * R) :=
  let '(t, _, vi, ei) := x in
  v <- get (el_values (vh_edits h)) vi; td <- get (el_edits (vh_edits h)) ei; Some (fst v, t, snd td).
Definition vh_edit (h : ValueHistory) : option (option (V * T * R)) :=
  match vh_history h with [] => Some None | x :: _ => u <- vh_resolve h x; Some (Some u) end.
(* 211-214 step *)
Definition vh_step (h : ValueHistory) : option ValueHistory :=
  match vh_history h with
  | [] => None
  | x :: l => u <- vh_resolve h x;
              Some {| vh_edits := vh_edits h; vh_history := l; vh_buffer := vh_buffer h ++ [u] |}
  end.
(* 216-220 step_while_time_is and 223-225 step_through: stepping while a condition holds of the next time *)
Fixpoint vh_step_while (n : nat) (p : T -> bool) (h : ValueHistory) : option (bool * ValueHistory) :=
  match vh_time h with
  | Some t => if p t then
                match n with
                | 0 => None
                | S n => h <- vh_step h; ' (_, h) <- vh_step_while n p h; Some (true, h)
                end
              else Some (false, h)
  | None => Some (false, h)
  end.
Definition vh_step_while_time_is (h : ValueHistory) (t : T) : option (bool * ValueHistory) :=
  vh_step_while (length (vh_history h)) (fun t' => eqb t' t) h.
Definition vh_step_through (h : ValueHistory) (t : T) : option ValueHistory :=
  ' (_, h) <- vh_step_while (length (vh_history h)) (fun t' => leb t' t) h; Some h.
(* 227-230 advance_buffer_by *)
Definition advance_by_meet (m : T) (u : V * T * R) : V * T * R := (fst (fst u), join (snd (fst u)) m, snd u).
Definition vh_advance_buffer_by (h : ValueHistory) (m : T) : ValueHistory :=
  {| vh_edits := vh_edits h; vh_history := vh_history h;
     vh_buffer := consolidate (A:=V*T) (map (advance_by_meet m) (vh_buffer h)) |}.
(* 232 is_done *)
Definition vh_is_done (h : ValueHistory) : bool := match vh_history h with [] => true | _ => false end.

(** A client: any sequence of the replaying methods. *)
Definition vh_op (h : ValueHistory) (o : replay_op T) : option ValueHistory :=
  match o with
  | Step => vh_step h
  | StepWhileTimeIs t => ' (_, h) <- vh_step_while_time_is h t; Some h
  | StepThrough t => vh_step_through h t
  | AdvanceBuffer m => Some (vh_advance_buffer_by h m)
  end.
Fixpoint vh_run (h : ValueHistory) (ops : list (replay_op T)) : option ValueHistory :=
  match ops with [] => Some h | o :: ops => h <- vh_op h o; vh_run h ops end.
End History.
Arguments EditList : clear implicits. Arguments ValueHistory : clear implicits.

(** ** TimeHistory, operators/common.rs:27-95, and TimeReplay, operators/mod.rs:261-288, which is the same
    over a history already built: lists in the order of replay, as above. *)
Section TimeHistory.
Context {T : Type} {TT : Time T}.
(* common.rs:27-33 *)
Record TimeHistory := { th_history : list (T * T); th_buffer : list T }.
(* common.rs:56-59 *)
Fixpoint th_suffix_meets (l : list (T * T)) : list (T * T) :=
  match l with
  | [] => []
  | (t, m) :: l => match th_suffix_meets l with [] => [(t, m)] | (t', m') :: l' => (t, meet m m') :: (t', m') :: l' end
  end.
(* common.rs:45-60 load; the pairs being sorted have equal components, so that sorting them by the first
   or as pairs is the same *)
Definition th_load (times : list T) (advance_by : option T) : TimeHistory :=
  {| th_history := th_suffix_meets (osort (map (fun t => let t := advance_opt advance_by t in (t, t)) times)); th_buffer := [] |}.
(* operators/mod.rs:150-153 replay_times *)
Definition th_replay {V R} (h : ValueHistory V T R) : TimeHistory :=
  {| th_history := map (fun x => fst (fst x)) (vh_history h); th_buffer := [] |}.
(* common.rs:63-69, mod.rs:267-268 *)
Definition th_time (h : TimeHistory) : option T := option_map fst (hd_error (th_history h)).
Definition th_meet (h : TimeHistory) : option T := option_map snd (hd_error (th_history h)).
(* common.rs:72-80, mod.rs:269-281 *)
Fixpoint th_step_loop (history : list (T * T)) (buffer : list T) (t : T) : bool * TimeHistory :=
  match history with
  | (t', m') :: history' =>
      if eqb t' t then (true, snd (th_step_loop history' (buffer ++ [t']) t))
      else (false, {| th_history := history; th_buffer := buffer |})
  | [] => (false, {| th_history := []; th_buffer := buffer |})
  end.
Definition th_step_while_time_is (h : TimeHistory) (t : T) : bool * TimeHistory :=
  th_step_loop (th_history h) (th_buffer h) t.
(* common.rs:84-90, mod.rs:282-286 *)
Definition th_advance_buffer_by (h : TimeHistory) (m : T) : TimeHistory :=
  {| th_history := th_history h; th_buffer := dedup (osort (map (fun t => join t m) (th_buffer h))) |}.

(** A client: [inl t] steps while the time is [t], [inr m] advances the buffer by [m]. *)
Fixpoint th_run (h : TimeHistory) (ops : list (T + T)) : TimeHistory :=
  match ops with
  | [] => h
  | inl t :: ops => th_run (snd (th_step_while_time_is h t)) ops
  | inr m :: ops => th_run (th_advance_buffer_by h m) ops
  end.
End TimeHistory.
Arguments TimeHistory : clear implicits.
