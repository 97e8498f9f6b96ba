(** * Model of the per-key join: differential-dataflow/src/operators/join.rs:583-662 (JoinThinker) and
    operators/common.rs:97-149 (bilinear_wave), and of the deferred merge join, join.rs:435-580.
    [None] is a panic or exhausted loop fuel. *)
From Verif Require Export Model.HistoryM Model.BuilderM.

Section Think.
Context {V1 V2 T R1 R2 : Type} {OV1 : Ord V1} {OV2 : Ord V2} {TT : Time T} {D1 : Diff R1} {D2 : Diff R2}.
Local Notation call := (V1 * V2 * T * R1 * R2)%type.

(* One match of an update of the first history with the buffer of the second: join.rs:627-631 and 645-649,
   common.rs:120-125 and 138-143; [results]/[emit] calls are collected in order *)
Definition emit1 (u1 : V1 * T * R1) (buf2 : list (V2 * T * R2)) : list call :=
  map (fun u2 => (fst (fst u1), fst (fst u2), join (snd (fst u1)) (snd (fst u2)), snd u1, snd u2)) buf2.
(* join.rs:635-639 and 653-657, common.rs:127-132 and 144-148 *)
Definition emit2 (u2 : V2 * T * R2) (buf1 : list (V1 * T * R1)) : list call :=
  map (fun u1 => (fst (fst u1), fst (fst u2), join (snd (fst u1)) (snd (fst u2)), snd u1, snd u2)) buf1.

(* the body run when the first history is stepped; the meet and the edit are unwrapped *)
Definition wave1 (h1 : ValueHistory V1 T R1) (h2 : ValueHistory V2 T R2) : option (ValueHistory V1 T R1 * ValueHistory V2 T R2 * list call) :=
  m <- vh_meet h1;
  let h2 := vh_advance_buffer_by h2 m in
  e <- vh_edit h1;
  u1 <- e;
  h1' <- vh_step h1;
  Some (h1', h2, emit1 u1 (vh_buffer h2)).
Definition wave2 (h1 : ValueHistory V1 T R1) (h2 : ValueHistory V2 T R2) : option (ValueHistory V1 T R1 * ValueHistory V2 T R2 * list call) :=
  m <- vh_meet h2;
  let h1 := vh_advance_buffer_by h1 m in
  e <- vh_edit h2;
  u2 <- e;
  h2' <- vh_step h2;
  Some (h1, h2', emit2 u2 (vh_buffer h1)).

(* join.rs:624-659 and common.rs:117-149.  The three consecutive loops - both histories have updates left,
   only the first, only the second - are one loop here: neither history regains updates, so that the
   loops' conditions hold in this order. *)
Fixpoint wave (fuel : nat) (h1 : ValueHistory V1 T R1) (h2 : ValueHistory V2 T R2) : option (list call) :=
  match vh_time h1, vh_time h2 with
  | None, None => Some []
  | t1, t2 =>
      match fuel with
      | 0 => None
      | S fuel =>
          ' (h1, h2, out) <-
            (match t1, t2 with
             | Some t1, Some t2 => if ltb t1 t2 then wave1 h1 h2 else wave2 h1 h2
             | Some _, None => wave1 h1 h2
             | _, _ => wave2 h1 h2
             end);
          rest <- wave fuel h1 h2;
          Some (out ++ rest)
      end
  end.

(* join.rs:603-661 think; [replay] is [build] (156-171) *)
Definition think (el1 : EditList V1 T R1) (el2 : EditList V2 T R2) : option (list call) :=
  if (el_len el1 <? 10) || (el_len el2 <? 10) then
    us1 <- el_map el1;
    (* the inner [map] runs once for each update of the first list *)
    ls <- mapM (fun u1 => us2 <- el_map el2; Some (emit1 u1 us2)) us1;
    Some (concat ls)
  else
    h1 <- vh_build el1;
    h2 <- vh_build el2;
    wave (length (vh_history h1) + length (vh_history h2)) h1 h2.

(* common.rs:106-149 bilinear_wave: pre-loaded histories, drained; the difference is multiplied here *)
Definition bilinear_wave {R3} {D3 : Diff R3} {MU : Multiply R1 R2 R3} (h1 : ValueHistory V1 T R1) (h2 : ValueHistory V2 T R2)
  : option (list (V1 * V2 * T * R3)) :=
  calls <- wave (length (vh_history h1) + length (vh_history h2)) h1 h2;
  Some (map (fun '(v1, v2, t, r1, r2) => (v1, v2, t, dmul r1 r2)) calls).
End Think.

(** ** The deferred merge join, join.rs:435-580 *)
Section Deferred.
Context {St1 C1 St2 C2 K V1 V2 D T R1 R2 R3 : Type} {OK : Ord K} {OV1 : Ord V1} {OV2 : Ord V2} {OD : Ord D} {TT : Time T}
  {D1 : Diff R1} {D2 : Diff R2} {D3 : Diff R3} {MU : Multiply R1 R2 R3}.
Variable ops1 : CursorOps St1 C1 K V1 T R1.
Variable ops2 : CursorOps St2 C2 K V2 T R2.
(** the user's closure in join_core, arrangement.rs:230-261, giving the output records of a pair; taken to be
    a function, without state of its own *)
Variable result : K -> V1 -> V2 -> list D.
(** the builder's preferred container length and the allocator, see BuilderM *)
Variable preferred : nat.
Variable alloc : nat -> nat.

(* join.rs:476-502 *)
Record DeferredIter := {
  di_cursor1 : C1; di_storage1 : St1; di_cursor2 : C2; di_storage2 : St2;
  di_meet : T; di_advance1 : bool; di_advance2 : bool;
  di_builder : ccb (A:=D*T) (R:=R3); di_ready : list (list (D * T * R3)); di_done : bool
}.

(* arrangement.rs:246-254: [for d in result(k, v1, v2) { session.give((d, t.clone(), (r1.clone()).multiply(r2))) }] *)
Definition logic (k : K) (c : V1 * V2 * T * R1 * R2) : list (D * T * R3) :=
  let '(v1, v2, t, r1, r2) := c in map (fun d => (d, t, dmul r1 r2)) (result k v1 v2).
Fixpoint push_all (us : list (D * T * R3)) (b : ccb) : option ccb :=
  match us with [] => Some b | u :: us => b <- ccb_push preferred alloc u b; push_all us b end.

(* join.rs:554-557: [while let Some(container) = builder.extract() { ready.push_back(mem::take(container)) }];
   the container lent is left empty in the builder *)
Fixpoint extract_loop (fuel : nat) (b : ccb) (ready : list (list (D * T * R3))) : option (ccb * list (list (D * T * R3))) :=
  match ccb_extract b with
  | (b, None) => Some (b, ready)
  | (b, Some c) => match fuel with
                   | 0 => None
                   | S fuel => ' (b, _) <- ccb_step preferred alloc b (BScribble []); extract_loop fuel b (ready ++ [c])
                   end
  end.
Definition extract_all (b : ccb) := extract_loop (length (ccb_outbound b)) b.
(* join.rs:570-573 *)
Fixpoint finish_loop (fuel : nat) (b : ccb) (ready : list (list (D * T * R3))) : option (ccb * list (list (D * T * R3))) :=
  ' (b, o) <- ccb_finish preferred b;
  match o with
  | None => Some (b, ready)
  | Some c => match fuel with
              | 0 => None
              | S fuel => ' (b, _) <- ccb_step preferred alloc b (BScribble []); finish_loop fuel b (ready ++ [c])
              end
  end.
Definition finish_all (b : ccb) := finish_loop (length (ccb_current b) + length (ccb_outbound b)) b.

(* join.rs:532-565: the loop [while ready.is_empty()].  [vfuel] bounds the loops over the values of a key. *)
Fixpoint di_loop (fuel vfuel : nat) (meet1 meet2 : option T) (d : DeferredIter) : option (DeferredIter * bool) :=
  match di_ready d with
  | _ :: _ => Some (d, false)
  | [] =>
      k1 <- c_get_key ops1 (di_storage1 d) (di_cursor1 d);
      k2 <- c_get_key ops2 (di_storage2 d) (di_cursor2 d);
      match k1, k2 with
      | Some key1, Some key2 =>
          match fuel with
          | 0 => None
          | S fuel =>
              match cmp key1 key2 with
              | Lt => c1 <- c_seek_key ops1 (di_storage1 d) (di_cursor1 d) key2;
                      di_loop fuel vfuel meet1 meet2
                        {| di_cursor1 := c1; di_storage1 := di_storage1 d; di_cursor2 := di_cursor2 d; di_storage2 := di_storage2 d;
                           di_meet := di_meet d; di_advance1 := di_advance1 d; di_advance2 := di_advance2 d;
                           di_builder := di_builder d; di_ready := di_ready d; di_done := di_done d |}
              | Gt => c2 <- c_seek_key ops2 (di_storage2 d) (di_cursor2 d) key1;
                      di_loop fuel vfuel meet1 meet2
                        {| di_cursor1 := di_cursor1 d; di_storage1 := di_storage1 d; di_cursor2 := c2; di_storage2 := di_storage2 d;
                           di_meet := di_meet d; di_advance1 := di_advance1 d; di_advance2 := di_advance2 d;
                           di_builder := di_builder d; di_ready := di_ready d; di_done := di_done d |}
              | Eq => ' (c1, el1) <- el_load ops1 vfuel (di_storage1 d) (di_cursor1 d) meet1;
                      ' (c2, el2) <- el_load ops2 vfuel (di_storage2 d) (di_cursor2 d) meet2;
                      calls <- think el1 el2;
                      b <- push_all (flat_map (logic key1) calls) (di_builder d);
                      c1 <- c_step_key ops1 (di_storage1 d) c1;
                      c2 <- c_step_key ops2 (di_storage2 d) c2;
                      ' (b, ready) <- extract_all b (di_ready d);
                      di_loop fuel vfuel meet1 meet2
                        {| di_cursor1 := c1; di_storage1 := di_storage1 d; di_cursor2 := c2; di_storage2 := di_storage2 d;
                           di_meet := di_meet d; di_advance1 := di_advance1 d; di_advance2 := di_advance2 d;
                           di_builder := b; di_ready := ready; di_done := di_done d |}
              end
          end
      | _, _ => Some (d, true)
      end
  end.

(* join.rs:514-579 next: the iterator after the call and the container returned, if any *)
Definition di_pop (d : DeferredIter) : DeferredIter * option (list (D * T * R3)) :=
  match di_ready d with
  | c :: ready => ({| di_cursor1 := di_cursor1 d; di_storage1 := di_storage1 d; di_cursor2 := di_cursor2 d; di_storage2 := di_storage2 d;
                      di_meet := di_meet d; di_advance1 := di_advance1 d; di_advance2 := di_advance2 d;
                      di_builder := di_builder d; di_ready := ready; di_done := di_done d |}, Some c)
  | [] => (d, None)
  end.
Definition di_next (fuel vfuel : nat) (d : DeferredIter) : option (DeferredIter * option (list (D * T * R3))) :=
  match di_ready d with
  | _ :: _ => Some (di_pop d)
  | [] =>
      if di_done d then Some (d, None) else
      let meet1 := if di_advance1 d then Some (di_meet d) else None in
      let meet2 := if di_advance2 d then Some (di_meet d) else None in
      ' (d, exhausted) <- di_loop fuel vfuel meet1 meet2 d;
      d <- (if (exhausted : bool) then
              ' (b, ready) <- finish_all (di_builder d) (di_ready d);
              Some {| di_cursor1 := di_cursor1 d; di_storage1 := di_storage1 d; di_cursor2 := di_cursor2 d; di_storage2 := di_storage2 d;
                      di_meet := di_meet d; di_advance1 := di_advance1 d; di_advance2 := di_advance2 d;
                      di_builder := b; di_ready := ready; di_done := true |}
            else Some d);
      Some (di_pop d)
  end.

(* join.rs:435-467 prep, over cursors already built by [cursor_list]; [fresh0] is [Fresh::Input0] *)
Definition di_prep (c1 : C1) (st1 : St1) (c2 : C2) (st2 : St2) (fresh0 : bool) (m : T) : DeferredIter :=
  {| di_cursor1 := c1; di_storage1 := st1; di_cursor2 := c2; di_storage2 := st2; di_meet := m;
     di_advance1 := negb fresh0; di_advance2 := fresh0; di_builder := ccb_default; di_ready := []; di_done := false |}.
End Deferred.
Arguments DeferredIter : clear implicits.
