(** * Model of differential-dataflow/src/trace/cursor/ *)
From Verif Require Export Base.Arrays Spec.CursorSpec Model.ContainerM.

(** The trait [Cursor], cursor/mod.rs:65-139: storage, cursor state and operations; [None] is a panic.
    [pos] and [nav] are only used here to name the six navigation methods. *)
Record CursorOps (St C K V T R : Type) := {
  c_key_valid : St -> C -> option bool;
  c_val_valid : St -> C -> option bool;
  c_key : St -> C -> option K;
  c_val : St -> C -> option V;
  c_get_key : St -> C -> option (option K);
  c_get_val : St -> C -> option (option V);
  c_map_times : St -> C -> option (list (T * R));
  c_step_key : St -> C -> option C;
  c_seek_key : St -> C -> K -> option C;
  c_step_val : St -> C -> option C;
  c_seek_val : St -> C -> V -> option C;
  c_rewind_keys : St -> C -> option C;
  c_rewind_vals : St -> C -> option C
}.
Arguments c_key_valid {St C K V T R}. Arguments c_val_valid {St C K V T R}.
Arguments c_key {St C K V T R}. Arguments c_val {St C K V T R}.
Arguments c_get_key {St C K V T R}. Arguments c_get_val {St C K V T R}.
Arguments c_map_times {St C K V T R}. Arguments c_step_key {St C K V T R}.
Arguments c_seek_key {St C K V T R}. Arguments c_step_val {St C K V T R}.
Arguments c_seek_val {St C K V T R}. Arguments c_rewind_keys {St C K V T R}.
Arguments c_rewind_vals {St C K V T R}.

Section Cursor.
Context {St C K V T R : Type} {OK : Ord K} {OV : Ord V}.
Variable ops : CursorOps St C K V T R.

Definition c_nav (st : St) (c : C) (op : nav K V) : option C :=
  match op with
  | StepKey => c_step_key ops st c
  | SeekKey k => c_seek_key ops st c k
  | StepVal => c_step_val ops st c
  | SeekVal v => c_seek_val ops st c v
  | RewindKeys => c_rewind_keys ops st c
  | RewindVals => c_rewind_vals ops st c
  end.
Fixpoint c_run (st : St) (c : C) (navs : list (nav K V)) : option C :=
  match navs with [] => Some c | op :: navs => c <- c_nav st c op; c_run st c navs end.

(** All that the accessors say in a state, provided they agree with each other. *)
Definition c_observe (st : St) (c : C) : option (option (K * option (V * list (T * R)))) :=
  ko <- c_get_key ops st c;
  kvalid <- c_key_valid ops st c;
  match ko with
  | None => if (kvalid : bool) then None else Some None
  | Some k =>
      k' <- c_key ops st c;
      vo <- c_get_val ops st c;
      vvalid <- c_val_valid ops st c;
      if eqb k k' && (kvalid : bool) then
        match vo with
        | None => if (vvalid : bool) then None else Some (Some (k, None))
        | Some v =>
            v' <- c_val ops st c;
            ts <- c_map_times ops st c;
            if eqb v v' && (vvalid : bool) then Some (Some (k, Some (v, ts))) else None
        end
      else None
  end.

(* cursor/mod.rs:164-184 to_vec, with owned keys and values; each loop is run for at most [fuel] rounds,
   [None] when that is not enough *)
Fixpoint to_vec_vals (fuel : nat) (st : St) (c : C) (key : K) (out : list ((K * V) * list (T * R)))
  : option (C * list ((K * V) * list (T * R))) :=
  vo <- c_get_val ops st c;
  match vo with
  | None => Some (c, out)
  | Some v =>
      match fuel with
      | 0 => None
      | S fuel =>
          kv_out <- c_map_times ops st c;
          c <- c_step_val ops st c;
          to_vec_vals fuel st c key (out ++ [((key, v), kv_out)])
      end
  end.
Fixpoint to_vec_keys (fuel vfuel : nat) (st : St) (c : C) (out : list ((K * V) * list (T * R)))
  : option (list ((K * V) * list (T * R))) :=
  ko <- c_get_key ops st c;
  match ko with
  | None => Some out
  | Some k =>
      match fuel with
      | 0 => None
      | S fuel =>
          c <- c_rewind_vals ops st c;
          ' (c, out) <- to_vec_vals vfuel st c k out;
          c <- c_step_key ops st c;
          to_vec_keys fuel vfuel st c out
      end
  end.
Definition to_vec (fuel vfuel : nat) (st : St) (c : C) : option (list ((K * V) * list (T * R))) :=
  c <- c_rewind_keys ops st c; to_vec_keys fuel vfuel st c [].

(** ** CursorList, cursor/cursor_list.rs *)
(* cursor_list.rs:10-14 *)
Record CursorList := { cl_cursors : list C; cl_min_key : list nat; cl_min_val : list nat }.

(* the loops of minimize_keys (46-66) and minimize_vals (84-104) over items [(idx, current)] *)
Section Minimize.
Context {A : Type} {OA : Ord A}.
Definition minimize_step (st : list nat * option A) (x : nat * option A) : list nat * option A :=
  let '(idxs, m) := st in
  match snd x with
  | None => st
  | Some a =>
      match m with
      | None => (idxs ++ [fst x], Some a)
      | Some m' => match cmp a m' with
                   | Lt => ([fst x], Some a)
                   | Eq => (idxs ++ [fst x], m)
                   | Gt => st
                   end
      end
  end.
Definition minimize (items : list (nat * option A)) : list nat := fst (fold_left minimize_step items ([], None)).
End Minimize.

(** [for i in is { collect f(i) }] with panics *)
Fixpoint mapM {A B} (f : A -> option B) (l : list A) : option (list B) :=
  match l with [] => Some [] | x :: l => y <- f x; r <- mapM f l; Some (y :: r) end.

Definition stores := list St.

(* cursor_list.rs:77-105 *)
Definition cl_minimize_vals (sts : stores) (cl : CursorList) : option CursorList :=
  items <- mapM (fun idx => c <- get (cl_cursors cl) idx; st <- get sts idx;
                            v <- c_get_val ops st c; Some (idx, v)) (cl_min_key cl);
  Some {| cl_cursors := cl_cursors cl; cl_min_key := cl_min_key cl; cl_min_val := minimize items |}.

(* cursor_list.rs:38-69 *)
Definition cl_minimize_keys (sts : stores) (cl : CursorList) : option CursorList :=
  items <- mapM (fun ic => st <- get sts (fst ic); k <- c_get_key ops st (snd ic); Some (fst ic, k))
             (combine (seq 0 (length (cl_cursors cl))) (cl_cursors cl));
  cl_minimize_vals sts {| cl_cursors := cl_cursors cl; cl_min_key := minimize items; cl_min_val := cl_min_val cl |}.

(* cursor_list.rs:18-27 *)
Definition cl_new (cursors : list C) (sts : stores) : option CursorList :=
  cl_minimize_keys sts {| cl_cursors := cursors; cl_min_key := []; cl_min_val := [] |}.

(* [for &index in is.iter() { self.cursors[index].f(&storage[index]) }], 163-165, 179-181, 202-204 *)
Fixpoint cl_apply (f : St -> C -> option C) (sts : stores) (is : list nat) (cs : list C) : option (list C) :=
  match is with
  | [] => Some cs
  | i :: is => c <- get cs i; st <- get sts i; c' <- f st c; cs <- put cs i c'; cl_apply f sts is cs
  end.
(* [for (cursor, storage) in self.cursors.iter_mut().zip(storage) { f }], 170-172, 186-188, 195-197 *)
Fixpoint cl_apply_all (f : St -> C -> option C) (sts : stores) (cs : list C) : option (list C) :=
  match sts, cs with
  | st :: sts, c :: cs => c' <- f st c; cs' <- cl_apply_all f sts cs; Some (c' :: cs')
  | _, _ => Some cs
  end.
Definition cl_with (cl : CursorList) (cs : list C) : CursorList :=
  {| cl_cursors := cs; cl_min_key := cl_min_key cl; cl_min_val := cl_min_val cl |}.

Definition cl_index (sts : stores) (cl : CursorList) (i : nat) {B} (f : St -> C -> option B) : option B :=
  c <- get (cl_cursors cl) i; st <- get sts i; f st c.

(* cursor_list.rs:108-207.  The [debug_assert]s of [key] and [val] (133-141) are not modelled: they are
   absent from release builds. *)
Definition cl_ops : CursorOps stores CursorList K V T R := {|
  c_key_valid := fun _ cl => Some (negb (is_nil (cl_min_key cl)));
  c_val_valid := fun _ cl => Some (negb (is_nil (cl_min_val cl)));
  c_key := fun sts cl => i <- get (cl_min_key cl) 0; cl_index sts cl i (c_key ops);
  c_val := fun sts cl => i <- get (cl_min_val cl) 0; cl_index sts cl i (c_val ops);
  c_get_key := fun sts cl => match get (cl_min_key cl) 0 with
                             | None => Some None
                             | Some i => k <- cl_index sts cl i (c_key ops); Some (Some k) end;
  c_get_val := fun sts cl => match get (cl_min_val cl) 0 with
                             | None => Some None
                             | Some i => v <- cl_index sts cl i (c_val ops); Some (Some v) end;
  c_map_times := fun sts cl => ls <- mapM (fun i => cl_index sts cl i (c_map_times ops)) (cl_min_val cl);
                               Some (concat ls);
  c_step_key := fun sts cl => cs <- cl_apply (c_step_key ops) sts (cl_min_key cl) (cl_cursors cl);
                              cl_minimize_keys sts (cl_with cl cs);
  c_seek_key := fun sts cl k => cs <- cl_apply_all (fun st c => c_seek_key ops st c k) sts (cl_cursors cl);
                                cl_minimize_keys sts (cl_with cl cs);
  c_step_val := fun sts cl => cs <- cl_apply (c_step_val ops) sts (cl_min_val cl) (cl_cursors cl);
                              cl_minimize_vals sts (cl_with cl cs);
  c_seek_val := fun sts cl v => cs <- cl_apply_all (fun st c => c_seek_val ops st c v) sts (cl_cursors cl);
                                cl_minimize_vals sts (cl_with cl cs);
  c_rewind_keys := fun sts cl => cs <- cl_apply_all (c_rewind_keys ops) sts (cl_cursors cl);
                                 cl_minimize_keys sts (cl_with cl cs);
  c_rewind_vals := fun sts cl => cs <- cl_apply (c_rewind_vals ops) sts (cl_min_key cl) (cl_cursors cl);
                                 cl_minimize_vals sts (cl_with cl cs)
|}.
End Cursor.
Arguments CursorList : clear implicits.
