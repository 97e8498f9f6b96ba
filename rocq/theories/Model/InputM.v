(** * Model of differential-dataflow/src/input.rs *)
From Verif Require Export Base.Lattice Base.Difference Base.Arrays.

Section Input.
Context {D T R : Type} {TT : Time T}.
Notation update := (D * T * R)%type.

(** What the dataflow is told, in order: a message with a capability for [t], that the input has advanced
    to [t], that the input is closed. *)
Inductive told := Message (t : T) (us : list update) | Advanced (t : T) | Closed.

(* timely's input Handle (timely 0.31, dataflow/operators/core/input.rs), as far as it is used: its time,
   and what it has told the dataflow so far.  Its own buffer of single records is never used here. *)
Record Handle := { h_time : T; h_told : list told }.
(* timely: Handle::new, time minimum *)
Definition handle_new : Handle := {| h_time := tmin; h_told := [] |}.
(* timely: Handle::send_batch sends the buffer at the handle's time, if it is not empty, and empties it *)
Definition send_batch (h : Handle) (buffer : list update) : Handle :=
  match buffer with
  | [] => h
  | _ => {| h_time := h_time h; h_told := h_told h ++ [Message (h_time h) buffer] |}
  end.
(* timely: Handle::advance_to asserts that its time is less or equal to the new one *)
Definition handle_advance (h : Handle) (t : T) : option Handle :=
  if tle (h_time h) t then Some {| h_time := t; h_told := h_told h ++ [Advanced t] |} else None.

(* input.rs:171-175; the vector's capacity is explicit *)
Record InputSession := { s_time : T; s_buffer : list update; s_capacity : nat; s_handle : Handle }.
(* 197-213 new, from *)
Definition session_from (h : Handle) : InputSession := {| s_time := h_time h; s_buffer := []; s_capacity := 0; s_handle := h |}.
Definition session_new : InputSession := session_from handle_new.

(* 216-239, the common part of update and update_at.  [spare] is the capacity of the vector that send_batch
   leaves behind; [more] is what the allocator may add to what [reserve] asks for. *)
Definition push (spare more : nat) (u : update) (s : InputSession) : InputSession :=
  let s :=
    if length (s_buffer s) =? s_capacity s then
      let s :=
        match s_buffer s with
        | [] => s
        | _ => {| s_time := s_time s; s_buffer := []; s_capacity := spare; s_handle := send_batch (s_handle s) (s_buffer s) |}
        end in
      {| s_time := s_time s; s_buffer := s_buffer s; s_capacity := Nat.max (s_capacity s) (length (s_buffer s) + 1024) + more; s_handle := s_handle s |}
    else s in
  {| s_time := s_time s; s_buffer := s_buffer s ++ [u]; s_capacity := s_capacity s; s_handle := s_handle s |}.
(* 217-226 *)
Definition session_update (spare more : nat) (element : D) (change : R) (s : InputSession) : InputSession :=
  push spare more (element, s_time s, change) s.
(* 229-239 *)
Definition session_update_at (spare more : nat) (element : D) (time : T) (change : R) (s : InputSession) : option InputSession :=
  if tle (s_time s) time then Some (push spare more (element, time, change) s) else None.
(* 246-251; [spare] as above *)
Definition session_flush (spare : nat) (s : InputSession) : option InputSession :=
  let h := send_batch (s_handle s) (s_buffer s) in
  h <- (if tlt (h_time h) (s_time s) then handle_advance h (s_time s) else Some h);
  Some {| s_time := s_time s; s_buffer := []; s_capacity := spare; s_handle := h |}.
(* 258-262 *)
Definition session_advance_to (time : T) (s : InputSession) : option InputSession :=
  if tle (h_time (s_handle s)) time && tle (s_time s) time then
    Some {| s_time := time; s_buffer := s_buffer s; s_capacity := s_capacity s; s_handle := s_handle s |}
  else None.
(* 273-277 Drop for InputSession, then timely's Drop for Handle, which closes the input *)
Definition session_drop (spare : nat) (s : InputSession) : option (list told) :=
  s <- session_flush spare s; Some (h_told (s_handle s) ++ [Closed]).

Inductive s_call :=
| CUpdate (spare more : nat) (element : D) (change : R)
| CUpdateAt (spare more : nat) (element : D) (time : T) (change : R)
| CFlush (spare : nat)
| CAdvanceTo (time : T).
Definition s_call_step (s : InputSession) (c : s_call) : option InputSession :=
  match c with
  | CUpdate spare more d r => Some (session_update spare more d r s)
  | CUpdateAt spare more d t r => session_update_at spare more d t r s
  | CFlush spare => session_flush spare s
  | CAdvanceTo t => session_advance_to t s
  end.
Fixpoint s_calls (s : InputSession) (cs : list s_call) : option InputSession :=
  match cs with [] => Some s | c :: cs => s <- s_call_step s c; s_calls s cs end.
End Input.
Arguments InputSession : clear implicits. Arguments s_call : clear implicits. Arguments told : clear implicits. Arguments Handle : clear implicits.

(* 179-182 insert and remove, for differences [isize]; overflow is not modelled *)
Definition c_insert {D T} (spare more : nat) (element : D) : s_call D T Z := CUpdate spare more element 1%Z.
Definition c_remove {D T} (spare more : nat) (element : D) : s_call D T Z := CUpdate spare more element (-1)%Z.
