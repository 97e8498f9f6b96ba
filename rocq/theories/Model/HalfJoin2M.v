(** * Model of dogsdogsdogs/src/operators/half_join2.rs: half_join and half_join_internal_unsafe
    [None] is a panic.  The yield function may answer anything: what it answers is the list [ys], and it does not ask
    to yield when the list is exhausted.  How the updates sent with one capability are cut into containers is not modelled. *)
From Verif Require Export Model.HalfJoinM.
From Verif Require Model.CaptureM.

Section HalfJoin2.
Context {B M C K V1 V2 D T R1 R2 R3 : Type} {OK : Ord K} {OV1 : Ord V1} {OV2 : Ord V2} {TT : Time T}
  {D1 : Diff R1} {D2 : Diff R2} {D3 : Diff R3} {MU : Multiply R1 R2 R3}.
Variable bops : BatchOps B M T.
Variable cops : CursorOps B C K V2 T R2. Variable new : C.
Variable frontier_func : T -> list T.      (* the times it inserts *)
Variable comparison : T -> T -> bool.
Variable output_func : K -> V1 -> V2 -> D.
Local Notation proposal := (K * V1 * T * T * R1)%type.    (* ((key, val1, time), initial, diff1) *)
Local Notation entry := (T * (K * V1 * T) * R1)%type.     (* (initial, (key, val1, time), diff1) *)
Local Notation update := (D * T * T * R3)%type.           (* ((dout, time), initial, diff) *)

(* half_join2.rs:170, [map(|(d, t, r)| (t, d, r))] *)
Definition entry_of (p : proposal) : entry := let '(d, initial, r) := p in (initial, d, r).
Definition proposal_of (e : entry) : proposal := let '(initial, d, r) := e in (d, initial, r).
Definition initial_of (e : entry) : T := fst (fst e).
(* half_join2.rs:360-366; [lower] is a MutableAntichain, see CaptureM *)
Record blob := { b_caps : list T; b_lower : list (T * Z); b_data : list entry; b_stuck : nat }.

(* half_join2.rs:186-194: [frontier.iter().min()] is the least by the total order *)
Definition total_min (F : list T) : option T :=
  match F with [] => None | f :: F => Some (fold_left (fun m t => if leb m t then m else t) F f) end.
Definition eligible (F : list T) (initial : T) : bool :=
  match total_min F with Some m => negb (comparison m initial) | None => true end.
(* [take_while(..).count()] *)
Fixpoint while_count {X} (p : X -> bool) (l : list X) : nat :=
  match l with [] => 0 | x :: l => if p x then S (while_count p l) else 0 end.
(* half_join2.rs:217-225, 246-250: sort the first [n] by (D, T, R).  They are sorted by (D, T) only, since no two of
   them agree on that: they were consolidated *)
Definition sort_ready (n : nat) (data : list entry) : list entry :=
  map entry_of (isort (A:=K*V1*T*T) (map proposal_of (firstn n data))) ++ skipn n data.
Definition counts (c : Z) (data : list entry) : list (T * Z) := map (fun e => (initial_of e, c)) data.
(* timely's CapabilitySet: [delayed] needs a capability at or before the time, [insert] is that of an antichain, and
   [downgrade] needs one at or before each time *)
Definition cs_delayed (caps : list T) (time : T) : option T := if ac_less_equal caps time then Some time else None.
Definition cs_downgrade (caps F : list T) : option (list T) := if forallb (ac_less_equal caps) F then Some F else None.
(* half_join2.rs:203-206 *)
Fixpoint caps_for (caps blob_caps F : list T) : option (list T) :=
  match F with [] => Some blob_caps | time :: F => c <- cs_delayed caps time; caps_for caps (ac_insert blob_caps c) F end.

(* half_join2.rs:196-233: the blob formed from what arrived, if any *)
Definition h2_arrive (frontier caps : list T) (arriving : list entry) : option (list blob) :=
  match consolidate (A:=T*(K*V1*T)) arriving with
  | [] => Some []
  | arriving =>
      let lower := CaptureM.ma_update_iter [] (counts 1 arriving) in
      blob_caps <- caps_for caps [] (CaptureM.ma_frontier lower);
      let stuck_count := while_count (fun e => negb (eligible frontier (initial_of e))) (rev arriving) in
      Some [{| b_caps := blob_caps; b_lower := lower; b_data := sort_ready (length arriving - stuck_count) arriving; b_stuck := stuck_count |}]
  end.
(* half_join2.rs:235-258 *)
Definition h2_nibble (frontier : list T) (b : blob) : option blob :=
  if b_stuck b =? length (b_data b) then
    let newly_ready := while_count (fun e => eligible frontier (initial_of e)) (b_data b) in
    if 0 <? newly_ready then
      let data := sort_ready newly_ready (b_data b) in
      let lower := CaptureM.ma_update_iter [] (counts 1 data) in
      caps <- cs_downgrade (b_caps b) (CaptureM.ma_frontier lower);
      Some {| b_caps := caps; b_lower := lower; b_data := data; b_stuck := b_stuck b - newly_ready |}
    else Some b
  else Some b.
(* half_join2.rs:270-307: the loop over the ready entries; those left, those removed, and what is sent, each piece with
   the capability it is sent with *)
Fixpoint h2_ready (fuel : nat) (tbs : list B) (caps : list T) (yielded : bool) (ys : list bool) (tc : CursorList C) (ready : list entry)
  : option (list entry * list (T * Z) * list (T * list update) * (bool * list bool)) :=
  match ready with
  | [] => Some ([], [], [], (yielded, ys))
  | e :: ready' =>
      let '(yielded, ys) := ask yielded ys in
      if yielded then Some (ready, [], [], (yielded, ys))
      else
        let '(initial, (key, val1, time), diff1) := e in
        n <- hj_position initial caps;
        cap <- get caps n;
        ' (tc, outs) <- look_up cops (hj_emit comparison output_func (MU:=MU) (proposal_of e)) fuel tbs tc key;
        ' (rest, removals, sent, y) <- h2_ready fuel tbs caps yielded ys tc ready';
        Some (rest, (initial, (-1)%Z) :: removals, (cap, outs) :: sent, y)
  end.
(* half_join2.rs:264-324, for one blob *)
Definition h2_process (s : Spine B M T) (yielded : bool) (ys : list bool) (b : blob) : option (blob * list (T * list update) * (bool * list bool)) :=
  tbs <- batches_through bops s [];
  tc <- cursor_list cops new tbs;
  let ready_len := length (b_data b) - b_stuck b in
  ' (rest, removals, sent, y) <- h2_ready (sum_len (b_len bops) tbs) tbs (b_caps b) yielded ys tc (firstn ready_len (b_data b));
  match rest ++ skipn ready_len (b_data b) with
  | [] => Some ({| b_caps := []; b_lower := []; b_data := []; b_stuck := b_stuck b |}, sent, y)
  | data =>
      let lower := CaptureM.ma_update_iter (b_lower b) removals in
      caps <- cs_downgrade (b_caps b) (CaptureM.ma_frontier lower);
      Some ({| b_caps := caps; b_lower := lower; b_data := data; b_stuck := b_stuck b |}, sent, y)
  end.
(* half_join2.rs:260-262: the loop over the blobs *)
Fixpoint h2_blobs_loop (s : Spine B M T) (yielded : bool) (ys : list bool) (blobs : list blob) : option (list blob * list (T * list update)) :=
  match blobs with
  | [] => Some ([], [])
  | b :: blobs =>
      if (b_stuck b <? length (b_data b)) && negb yielded then
        ' (b, sent, (yielded, ys)) <- h2_process s yielded ys b;
        ' (blobs, rest) <- h2_blobs_loop s yielded ys blobs;
        Some (b :: blobs, sent ++ rest)
      else
        ' (blobs, rest) <- h2_blobs_loop s yielded ys blobs;
        Some (b :: blobs, rest)
  end.
Fixpoint nibble_all (frontier : list T) (blobs : list blob) : option (list blob) :=
  match blobs with [] => Some [] | b :: blobs => b <- h2_nibble frontier b; blobs <- nibble_all frontier blobs; Some (b :: blobs) end.

(** half_join2.rs:144, 155: the blobs, and the frontiers of the handle on the trace, until it is dropped *)
Record h2state := { h2_blobs : list blob; h2_trace : option (list T * list T) }.
(* half_join2.rs:142-144 *)
Definition h2_start (handle : list T * list T) : h2state := {| h2_blobs := []; h2_trace := Some (fst handle, antichain_join (snd handle) []) |}.
(* half_join2.rs:163-351: one activation; what was sent, at which capability, and whether the operator asks to be
   activated again.  The messages of the second input are only drained. *)
Definition h2_activate (s : Spine B M T) (msgs1 : list (T * list proposal)) (frontier1 frontier2 : list T) (ys : list bool) (h : h2state)
  : option (h2state * list (T * list update) * bool) :=
  let arriving := map entry_of (flat_map snd msgs1) in
  let caps := ac_from (map fst msgs1) in
  ' (blobs, sent) <- match h2_trace h with
                     | Some _ =>
                         arrived <- h2_arrive frontier2 caps arriving;
                         blobs <- nibble_all frontier2 (h2_blobs h ++ arrived);
                         ' (blobs, sent) <- h2_blobs_loop s false ys blobs;
                         Some (filter (fun b => match b_data b with [] => false | _ => true end) blobs, sent)
                     | None => Some (h2_blobs h, [])
                     end;
  let again := existsb (fun b => b_stuck b <? length (b_data b)) blobs in
  let frontier := ac_from (flat_map frontier_func (frontier1 ++ flat_map b_caps blobs)) in
  let trace := match h2_trace h with
               | Some (L, P) => match frontier1, blobs with [], [] => None | _, _ => Some (antichain_join L frontier, P) end
               | None => None
               end in
  Some ({| h2_blobs := blobs; h2_trace := trace |}, sent, again).
End HalfJoin2.
Arguments blob : clear implicits.
Arguments h2state : clear implicits.
