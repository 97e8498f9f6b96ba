(** * Model of CursorTactic: differential-dataflow/src/operators/join.rs:385-467
    The batches are navigated by cursors [cops1] and [cops2], new cursors of a batch are [new1] and [new2]
    (trace/mod.rs:191-201 Navigable); [len1] and [len2] are the numbers of updates of a batch. *)
From Verif Require Export Model.CursorM Model.JoinM Model.JoinDriverM.

Section Tactic.
Context {B1 C1 B2 C2 K V1 V2 D T R1 R2 R3 : Type} {OK : Ord K} {OV1 : Ord V1} {OV2 : Ord V2} {OD : Ord D} {TT : Time T}
  {D1 : Diff R1} {D2 : Diff R2} {D3 : Diff R3} {MU : Multiply R1 R2 R3}.
Variable cops1 : CursorOps B1 C1 K V1 T R1. Variable new1 : C1. Variable len1 : B1 -> nat.
Variable cops2 : CursorOps B2 C2 K V2 T R2. Variable new2 : C2. Variable len2 : B2 -> nat.
Variable result : K -> V1 -> V2 -> list D.
Variable preferred : nat.
Variable alloc : nat -> nat.

(* trace/cursor/mod.rs:58-62 cursor_list: a cursor for each batch, merged *)
Definition cursor_list {B C V R} {OV : Ord V} (cops : CursorOps B C K V T R) (new : C) (bs : list B) : option (CursorList C) :=
  cl_new cops (map (fun _ => new) bs) bs.

(** The work is the deferred iterator; the bound on its loops is the number of updates it reads, which
    JoinTacticP shows to be enough. *)
Definition join_work := DeferredIter (list B1) (CursorList C1) (list B2) (CursorList C2) D T R3.
Definition sum_len {B} (len : B -> nat) (bs : list B) : nat := fold_right (fun b n => len b + n) 0 bs.
Definition work_fuel (w : join_work) : nat := sum_len len1 (di_storage1 w) + sum_len len2 (di_storage2 w).

(* join.rs:435-467 prep; join.rs:514-579 next *)
Definition cursor_tactic : JoinTactic B1 B2 T join_work (D * T * R3) := {|
  jt_prep := fun input0 input1 fresh0 meet =>
    cursor1 <- cursor_list cops1 new1 input0;
    cursor2 <- cursor_list cops2 new2 input1;
    Some (di_prep cursor1 input0 cursor2 input1 fresh0 meet);
  jt_next := fun w => di_next (cl_ops cops1) (cl_ops cops2) result preferred alloc (work_fuel w) (work_fuel w) w |}.
End Tactic.
