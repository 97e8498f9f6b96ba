(** * Model of differential-dataflow/src/operators/count.rs:66-139 and threshold.rs:112-204
    The two operators are written out twice in the code; what they share is modelled once, with the part in
    which they differ, what is produced for an update, as the parameter [emit].  [None] is a panic. *)
From Verif Require Export Model.JoinTacticM.

Section Total.
Context {B M C K T R X : Type} {OK : Ord K} {TT : Time T} {DR : Diff R}.
Variable bops : BatchOps B M T.
Variable cops : CursorOps B C K unit T R. Variable new : C.
(** what is produced for an update to a key, given the accumulation before it, if there were any updates *)
Variable emit : K -> option R -> T -> R -> list X.

(* count.rs:104-107, 117-118; threshold.rs:162-165, 184-189: add to, or set, the accumulation *)
Definition count_plus (count : option R) (diff : R) : option R :=
  match count with Some c => Some (dplus c diff) | None => Some diff end.
(* count.rs:103-108, threshold.rs:160-166: the accumulation in the trace *)
Definition count_all (ts : list (T * R)) : option R := fold_left (fun c td => count_plus c (snd td)) ts None.
(* count.rs:110-124, threshold.rs:170-196: the updates of the batches *)
Fixpoint emit_all (key : K) (count : option R) (ts : list (T * R)) : list X :=
  match ts with
  | [] => []
  | (time, diff) :: ts => emit key count time diff ++ emit_all key (count_plus count diff) ts
  end.
(* count.rs:100-128, threshold.rs:156-200: the loop over the keys of the batches; [fuel] bounds its rounds *)
Fixpoint total_keys (fuel : nat) (bs tbs : list B) (bc tc : CursorList C) : option (list X) :=
  ko <- c_get_key (cl_ops cops) bs bc;
  match ko with
  | None => Some []
  | Some key =>
      match fuel with
      | 0 => None
      | S fuel =>
          tc <- c_seek_key (cl_ops cops) tbs tc key;
          tk <- c_get_key (cl_ops cops) tbs tc;
          count <- (if match tk with Some k => eqb k key | None => false end
                    then ts <- c_map_times (cl_ops cops) tbs tc; Some (count_all ts) else Some None);
          ts <- c_map_times (cl_ops cops) bs bc;
          bc <- c_step_key (cl_ops cops) bs bc;
          rest <- total_keys fuel bs tbs bc tc;
          Some (emit_all key count ts ++ rest)
      end
  end.

(** count.rs:73-74, threshold.rs:128-129: the limit of received batches, and the frontiers of the handle on
    the trace *)
Record tstate := { ts_upper : list T; ts_handle : list T * list T }.
(* count.rs:76-135, threshold.rs:131-203: one activation *)
Definition t_activate (s : Spine B M T) (msgs : list (T * list B)) (st : tstate) : option (tstate * list (T * list X)) :=
  let lower := ts_upper st in
  let bs := flat_map snd msgs in
  let upper := fold_left (fun _ b => d_upper (b_desc bops b)) bs lower in
  outs <- match msgs with
          | [] => Some []
          | (cap, _) :: _ =>
              bc <- cursor_list cops new bs;
              tbs <- batches_through bops s lower;
              tc <- cursor_list cops new tbs;
              us <- total_keys (sum_len (b_len bops) bs) bs tbs bc tc;
              Some [(cap, us)]
          end;
  let upper := advance_upper bops s upper in
  Some ({| ts_upper := upper; ts_handle := (antichain_join (fst (ts_handle st)) upper, antichain_join (snd (ts_handle st)) upper) |}, outs).
(* count.rs:73-74, threshold.rs:128-129 *)
Definition t_start (handle : list T * list T) : tstate := {| ts_upper := ac_from [tmin]; ts_handle := handle |}.
End Total.
Arguments tstate : clear implicits.

(** ** What the operators produce for an update *)
Section Emit.
Context {K T R R2 : Type} {OK : Ord K} {TT : Time T} {DR : Diff R} {D2 : Diff R2}.
(* count.rs:112-123; [neg] and [pos] are [R2::from(-1)] and [R2::from(1)] *)
Definition emit_count (neg pos : R2) (key : K) (count : option R) (time : T) (diff : R) : list (K * R * T * R2) :=
  match count with
  | Some c => if is_zero c then [] else [((key, c), time, neg)]
  | None => []
  end ++
  match count_plus count diff with
  | Some c => if is_zero c then [] else [((key, c), time, pos)]
  | None => []
  end.
(* threshold.rs:172-195 *)
Definition emit_threshold (thresh : K -> R -> option R -> option R2) (key : K) (count : option R) (time : T) (diff : R) : list (K * T * R2) :=
  let difference := match count with
                    | Some old => thresh key (dplus old diff) (Some old)
                    | None => thresh key diff None
                    end in
  match difference with
  | Some d => if is_zero d then [] else [(key, time, d)]
  | None => []
  end.
(* threshold.rs:42-52 threshold_total *)
Definition threshold_total {AB : Abelian R2} (thresh : K -> R -> R2) (key : K) (new : R) (old : option R) : option R2 :=
  let new := thresh key new in
  let new := match old with Some old => dplus new (dneg (thresh key old)) | None => new end in
  if is_zero new then None else Some new.
(* threshold.rs:81-83 distinct_total_core *)
Definition distinct_total {AB : Abelian R2} (one : R2) : K -> R -> option R -> option R2 := threshold_total (fun _ _ => one).
End Emit.
