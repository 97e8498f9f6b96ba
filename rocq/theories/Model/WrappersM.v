(** * Model of differential-dataflow/src/trace/wrappers/: enter.rs, enter_at.rs and frontier.rs

    A wrapper delegates every method to what it wraps, except those below.  [None] is a panic.  The
    buffers [stash1] and [stash2] are cleared before each use and not modelled as state; the user's
    closures are pure functions. *)
From Verif Require Export Model.CursorM Model.DescriptionM Model.CollectionM.

(** ** Cursors *)
Section Cursors.
Context {St C K V T T2 R : Type}.
Variable inner : CursorOps St C K V T R.

(* enter.rs:168-199, enter_at.rs:203-231, frontier.rs:145-175: every method but map_times is that of the
   wrapped cursor *)
Definition delegate (map_times : St -> C -> option (list (T2 * R))) : CursorOps St C K V T2 R := {|
  c_key_valid := c_key_valid inner; c_val_valid := c_val_valid inner;
  c_key := c_key inner; c_val := c_val inner;
  c_get_key := c_get_key inner; c_get_val := c_get_val inner;
  c_map_times := map_times;
  c_step_key := c_step_key inner; c_seek_key := c_seek_key inner;
  c_step_val := c_step_val inner; c_seek_val := c_seek_val inner;
  c_rewind_keys := c_rewind_keys inner; c_rewind_vals := c_rewind_vals inner |}.

(* enter.rs:185-189 *)
Definition enter_map_times (rf : RefinesOps T T2) (st : St) (c : C) : option (list (T2 * R)) :=
  ts <- c_map_times inner st c;
  Some (map (fun u => (to_inner rf (fst u), snd u)) ts).
Definition enter_ops (rf : RefinesOps T T2) : CursorOps St C K V T2 R := delegate (enter_map_times rf).

(* enter_at.rs:214-222 *)
Definition enter_at_map_times (logic : K -> V -> T -> T2) (st : St) (c : C) : option (list (T2 * R)) :=
  key <- c_key inner st c;
  val <- c_val inner st c;
  ts <- c_map_times inner st c;
  Some (map (fun u => (logic key val (fst u), snd u)) ts).
Definition enter_at_ops (logic : K -> V -> T -> T2) : CursorOps St C K V T2 R := delegate (enter_at_map_times logic).
End Cursors.

(* frontier.rs:154-165 *)
Definition frontier_map_times {St C K V T R} {TT : Time T} (inner : CursorOps St C K V T R) (since until : list T) (st : St) (c : C)
  : option (list (T * R)) :=
  ts <- c_map_times inner st c;
  Some (flat_map (fun u =>
          let temp := advance_by (fst u) since in
          if negb (ac_less_equal until temp) then [(temp, snd u)] else []) ts).
Definition frontier_ops {St C K V T R} {TT : Time T} (inner : CursorOps St C K V T R) (since until : list T) : CursorOps St C K V T R :=
  delegate inner (frontier_map_times inner since until).

(** ** Batches: the wrapped batch is kept as it is; its description is presented in the inner time *)
(* enter.rs:125-135 and enter_at.rs:159-170; timely's [Antichain::from] a vector inserts its elements in
   turn.  BatchFrontier (frontier.rs:91-95) presents the wrapped batch's description. *)
Definition enter_description {T T2} {TT2 : Time T2} (rf : RefinesOps T T2) (d : Description T) : option (Description T2) :=
  desc_new (ac_from (map (to_inner rf) (d_lower d))) (ac_from (map (to_inner rf) (d_upper d))) (ac_from (map (to_inner rf) (d_since d))).

(** ** Traces: frontiers passed in and out *)
Section Frontiers.
Context {T T2 : Type} {TT : Time T} {TT2 : Time T2}.
Variable rf : RefinesOps T T2.
(* enter.rs:42-46 and 56-60 (set_*_compaction), 69-76 (batches_through); enter_at.rs:91-99 (batches_through) *)
Definition enter_in (frontier : list T2) : list T := ac_from (map (to_outer rf) frontier).
(* enter.rs:48-54 and 62-68 (get_*_compaction); enter_at.rs:68-74 and 83-89 *)
Definition enter_out (frontier : list T) : list T2 := ac_from (map (to_inner rf) frontier).
(* enter_at.rs:61-67 and 76-82 (set_*_compaction) *)
Definition enter_at_in (prior : T2 -> T) (frontier : list T2) : list T := ac_from (map prior frontier).
End Frontiers.
(* frontier.rs:44-48: compaction frontiers are passed on unchanged *)
Definition frontier_in {T} (frontier : list T) : list T := frontier.
