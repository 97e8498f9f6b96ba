(** * Model of differential-dataflow/src/trace/implementations/ord_neu.rs

    Containers are the [Vec] instance of [BatchContainer]: lists with checked indexing ([None] is a
    panic).  The offset container is a list of numbers; [OffsetList] is shown to be one in
    Props/ContainerProps.v.  Capacities are not modelled. *)
From Verif Require Export Model.DescriptionM Model.ConsolidationM Model.ContainerM Model.CursorM Base.Difference.

(** ** layers::Upds and UpdsBuilder -- ord_neu.rs:107-240 *)
Section Layers.
Context {T R : Type} {TT : Time T} {DR : Diff R} {OR : Ord R}.

(* ord_neu.rs:112-119 *)
Record Upds := { u_offs : list nat; u_times : list T; u_diffs : list R }.

(* ord_neu.rs:154-172 with_capacity, merge_capacity *)
Definition upds_new : Upds := {| u_offs := [0]; u_times := []; u_diffs := [] |}.

(* ord_neu.rs:126-136 *)
Definition upds_bounds (u : Upds) (index : nat) : option (nat * nat) :=
  lower <- get (u_offs u) index;
  upper <- get (u_offs u) (index + 1);
  if lower =? upper then (if 0 <? lower then Some (lower - 1, upper) else None)
  else Some (lower, upper).

(* ord_neu.rs:150-152 *)
Definition upds_get_abs (u : Upds) (index : nat) : option (T * R) :=
  t <- get (u_times u) index; r <- get (u_diffs u) index; Some (t, r).

(* the loops [for index in lower .. upper { get_abs(index) }], ord_neu.rs:553-560, 602-605 *)
Fixpoint upds_range (u : Upds) (n lower : nat) : option (list (T * R)) :=
  match n with
  | 0 => Some []
  | S n => x <- upds_get_abs u lower; r <- upds_range u n (S lower); Some (x :: r)
  end.
Definition upds_list (u : Upds) (index : nat) : option (list (T * R)) :=
  ' (lower, upper) <- upds_bounds u index; upds_range u (upper - lower) lower.

(* ord_neu.rs:176-191; the staging containers [time_con], [diff_con] hold only a copy of the singleton *)
Record UpdsBuilder := { stash : list (T * R); total : nat }.
Definition ub_new : UpdsBuilder := {| stash := []; total := 0 |}.

(* ord_neu.rs:204-206 *)
Definition ub_push (b : UpdsBuilder) (t : T) (r : R) : UpdsBuilder :=
  {| stash := stash b ++ [(t, r)]; total := total b |}.

(* BatchContainer::last, implementations/mod.rs:423-430 *)
Definition last_opt {A} (l : list A) : option A := match length l with 0 => None | S n => nth_error l n end.
Definition opt_eqb {A} {OA : Ord A} (x : option A) (y : A) : bool := match x with Some x => eqb x y | None => false end.

(* ord_neu.rs:229-235 *)
Definition ub_conventional (b : UpdsBuilder) (st : list (T * R)) (u : Upds) : UpdsBuilder * Upds * bool :=
  let times := u_times u ++ map fst st in
  ({| stash := []; total := total b + length st |},
   {| u_offs := u_offs u ++ [length times]; u_times := times; u_diffs := u_diffs u ++ map snd st |}, true).

(* ord_neu.rs:211-236 seal *)
Definition ub_seal (b : UpdsBuilder) (u : Upds) : UpdsBuilder * Upds * bool :=
  let st := consolidate (stash b) in
  match st with
  | [] => ({| stash := []; total := total b |}, u, false)
  | [(time, diff)] =>
      if opt_eqb (last_opt (u_times u)) time && opt_eqb (last_opt (u_diffs u)) diff then
        ({| stash := []; total := total b + 1 |},
         {| u_offs := u_offs u ++ [length (u_times u)]; u_times := u_times u; u_diffs := u_diffs u |}, true)
      else ub_conventional b st u
  | _ => ub_conventional b st u
  end.
End Layers.
Arguments Upds : clear implicits.
Arguments UpdsBuilder : clear implicits.

(** ** val_batch -- ord_neu.rs:243-733 *)
Section OrdVal.
Context {K V T R : Type} {OK : Ord K} {OV : Ord V} {TT : Time T} {DR : Diff R} {OR : Ord R}.

(* ord_neu.rs:266-273 with layers::Vals (53-60) inlined *)
Record OrdValStorage := { ov_keys : list K; v_offs : list nat; v_vals : list V; ov_upds : Upds T R }.
(* ord_neu.rs:287-298 *)
Record OrdValBatch := { ov_storage : OrdValStorage; ov_desc : Description T; ov_updates : nat }.

Definition ov_storage_new : OrdValStorage := {| ov_keys := []; v_offs := [0]; v_vals := []; ov_upds := upds_new |}.

(* ord_neu.rs:68-70 *)
Definition vals_bounds (s : OrdValStorage) (index : nat) : option (nat * nat) :=
  lower <- get (v_offs s) index; upper <- get (v_offs s) (index + 1); Some (lower, upper).

(* ord_neu.rs:333-344 *)
Definition ov_empty (lower upper : list T) : option OrdValBatch :=
  d <- desc_new lower upper [tmin];
  Some {| ov_storage := ov_storage_new; ov_desc := d; ov_updates := 0 |}.

(** *** Merger, ord_neu.rs:348-562 *)
Record OrdValMerger := {
  ovm_kc1 : nat; ovm_kc2 : nat; ovm_result : OrdValStorage; ovm_desc : Description T; ovm_staging : UpdsBuilder T R }.

(* ord_neu.rs:365-388 *)
Definition ovm_new (b1 b2 : OrdValBatch) (compaction_frontier : list T) : option OrdValMerger :=
  if ac_eqb (d_upper (ov_desc b1)) (d_lower (ov_desc b2)) then
    let since := antichain_lattice_join (d_since (ov_desc b1)) (d_since (ov_desc b2)) in
    let since := antichain_lattice_join since compaction_frontier in
    d <- desc_new (d_lower (ov_desc b1)) (d_upper (ov_desc b2)) since;
    Some {| ovm_kc1 := 0; ovm_kc2 := 0; ovm_result := ov_storage_new; ovm_desc := d; ovm_staging := ub_new |}
  else None.

(* ord_neu.rs:389-395 *)
Definition ovm_done (m : OrdValMerger) : OrdValBatch :=
  {| ov_storage := ovm_result m; ov_desc := ovm_desc m; ov_updates := total (ovm_staging m) |}.

(** The helper methods work on [(result, staging)]. *)
Local Notation St := (OrdValStorage * UpdsBuilder T R)%type.

(* ord_neu.rs:551-561 *)
Definition stash_updates_for_val (since : list T) (st : St) (source : OrdValStorage) (index : nat) : option St :=
  l <- upds_list (ov_upds source) index;
  Some (fst st, fold_left (fun b x => ub_push b (advance_by (fst x) since) (snd x)) l (snd st)).

(* [if self.staging.seal(&mut self.result.upds) { self.result.vals.vals.push_ref(v) }], e.g. ord_neu.rs:441-443 *)
Definition seal_val (st : St) (v : V) : St :=
  let '(b, u, nonempty) := ub_seal (snd st) (ov_upds (fst st)) in
  ({| ov_keys := ov_keys (fst st); v_offs := v_offs (fst st);
      v_vals := if nonempty : bool then v_vals (fst st) ++ [v] else v_vals (fst st); ov_upds := u |}, b).

(* one round of ord_neu.rs:439-445, 527-533, 534-540 *)
Definition copy_val (since : list T) (st : St) (source : OrdValStorage) (lower : nat) : option St :=
  st <- stash_updates_for_val since st source lower;
  v <- get (v_vals source) lower;
  Some (seal_val st v).

(* the loops [while lower < upper]; [n] is [upper - lower] *)
Fixpoint copy_vals (n : nat) (since : list T) (st : St) (source : OrdValStorage) (lower : nat) : option St :=
  match n with
  | 0 => Some st
  | S n => st <- copy_val since st source lower; copy_vals n since st source (S lower)
  end.

Definition push_key (s : OrdValStorage) (k : K) (off : nat) : OrdValStorage :=
  {| ov_keys := ov_keys s ++ [k]; v_offs := v_offs s ++ [off]; v_vals := v_vals s; ov_upds := ov_upds s |}.

(* ord_neu.rs:435-452 *)
Definition copy_key (since : list T) (st : St) (source : OrdValStorage) (cursor : nat) : option St :=
  let init_vals := length (v_vals (fst st)) in
  ' (lower, upper) <- vals_bounds source cursor;
  st <- copy_vals (upper - lower) since st source lower;
  if init_vals <? length (v_vals (fst st)) then
    k <- get (ov_keys source) cursor;
    Some (push_key (fst st) k (length (v_vals (fst st))), snd st)
  else Some st.

(* ord_neu.rs:493-525; then the remaining values, 527-540.  [fuel] counts the values on both sides. *)
Fixpoint merge_vals_loop (fuel : nat) (since : list T) (st : St)
    (source1 : OrdValStorage) (lower1 upper1 : nat) (source2 : OrdValStorage) (lower2 upper2 : nat) : option St :=
  if (lower1 <? upper1) && (lower2 <? upper2) then
    match fuel with
    | 0 => None
    | S fuel =>
        v1 <- get (v_vals source1) lower1;
        v2 <- get (v_vals source2) lower2;
        match cmp v1 v2 with
        | Lt => st <- stash_updates_for_val since st source1 lower1;
                merge_vals_loop fuel since (seal_val st v1) source1 (S lower1) upper1 source2 lower2 upper2
        | Eq => st <- stash_updates_for_val since st source1 lower1;
                st <- stash_updates_for_val since st source2 lower2;
                merge_vals_loop fuel since (seal_val st v1) source1 (S lower1) upper1 source2 (S lower2) upper2
        | Gt => st <- stash_updates_for_val since st source2 lower2;
                merge_vals_loop fuel since (seal_val st v2) source1 lower1 upper1 source2 (S lower2) upper2
        end
    end
  else
    st <- copy_vals (upper1 - lower1) since st source1 lower1;
    copy_vals (upper2 - lower2) since st source2 lower2.

(* ord_neu.rs:486-548, returning also the offset to record, if any *)
Definition merge_vals (since : list T) (st : St)
    (source1 : OrdValStorage) (lower1 upper1 : nat) (source2 : OrdValStorage) (lower2 upper2 : nat) : option (St * option nat) :=
  let init_vals := length (v_vals (fst st)) in
  st <- merge_vals_loop ((upper1 - lower1) + (upper2 - lower2)) since st source1 lower1 upper1 source2 lower2 upper2;
  Some (st, if init_vals <? length (v_vals (fst st)) then Some (length (v_vals (fst st))) else None).

Definition ovm_set (m : OrdValMerger) (kc1 kc2 : nat) (st : St) : OrdValMerger :=
  {| ovm_kc1 := kc1; ovm_kc2 := kc2; ovm_result := fst st; ovm_desc := ovm_desc m; ovm_staging := snd st |}.

(* ord_neu.rs:457-481 *)
Definition merge_key (m : OrdValMerger) (source1 source2 : OrdValStorage) : option OrdValMerger :=
  let since := d_since (ovm_desc m) in
  let st := (ovm_result m, ovm_staging m) in
  k1 <- get (ov_keys source1) (ovm_kc1 m);
  k2 <- get (ov_keys source2) (ovm_kc2 m);
  match cmp k1 k2 with
  | Lt => st <- copy_key since st source1 (ovm_kc1 m); Some (ovm_set m (ovm_kc1 m + 1) (ovm_kc2 m) st)
  | Eq =>
      ' (lower1, upper1) <- vals_bounds source1 (ovm_kc1 m);
      ' (lower2, upper2) <- vals_bounds source2 (ovm_kc2 m);
      ' (st, off) <- merge_vals since st source1 lower1 upper1 source2 lower2 upper2;
      let st := match off with Some off => (push_key (fst st) k1 off, snd st) | None => st end in
      Some (ovm_set m (ovm_kc1 m + 1) (ovm_kc2 m + 1) st)
  | Gt => st <- copy_key since st source2 (ovm_kc2 m); Some (ovm_set m (ovm_kc1 m) (ovm_kc2 m + 1) st)
  end.

(* the effort after a round: [(self.staging.total() - starting_updates) as isize] *)
Definition effort_of (starting : nat) (m : OrdValMerger) : Z := Z.of_nat (total (ovm_staging m) - starting).

(* ord_neu.rs:403-407.  [rounds] counts the remaining keys on both sides; running out is [None]. *)
Fixpoint work_merge (rounds : nat) (m : OrdValMerger) (s1 s2 : OrdValStorage) (starting : nat) (effort fuel : Z)
  : option (OrdValMerger * Z) :=
  if (ovm_kc1 m <? length (ov_keys s1)) && (ovm_kc2 m <? length (ov_keys s2)) && (effort <? fuel)%Z then
    match rounds with
    | 0 => None
    | S rounds => m <- merge_key m s1 s2; work_merge rounds m s1 s2 starting (effort_of starting m) fuel
    end
  else Some (m, effort).

(* ord_neu.rs:411-415 *)
Fixpoint work_copy1 (rounds : nat) (m : OrdValMerger) (s1 : OrdValStorage) (starting : nat) (effort fuel : Z)
  : option (OrdValMerger * Z) :=
  if (ovm_kc1 m <? length (ov_keys s1)) && (effort <? fuel)%Z then
    match rounds with
    | 0 => None
    | S rounds =>
        st <- copy_key (d_since (ovm_desc m)) (ovm_result m, ovm_staging m) s1 (ovm_kc1 m);
        let m := ovm_set m (ovm_kc1 m + 1) (ovm_kc2 m) st in
        work_copy1 rounds m s1 starting (effort_of starting m) fuel
    end
  else Some (m, effort).

(* ord_neu.rs:416-420 *)
Fixpoint work_copy2 (rounds : nat) (m : OrdValMerger) (s2 : OrdValStorage) (starting : nat) (effort fuel : Z)
  : option (OrdValMerger * Z) :=
  if (ovm_kc2 m <? length (ov_keys s2)) && (effort <? fuel)%Z then
    match rounds with
    | 0 => None
    | S rounds =>
        st <- copy_key (d_since (ovm_desc m)) (ovm_result m, ovm_staging m) s2 (ovm_kc2 m);
        let m := ovm_set m (ovm_kc1 m) (ovm_kc2 m + 1) st in
        work_copy2 rounds m s2 starting (effort_of starting m) fuel
    end
  else Some (m, effort).

(* ord_neu.rs:396-423; returns the merger and the remaining fuel *)
Definition ovm_work (m : OrdValMerger) (b1 b2 : OrdValBatch) (fuel : Z) : option (OrdValMerger * Z) :=
  let s1 := ov_storage b1 in
  let s2 := ov_storage b2 in
  let starting := total (ovm_staging m) in
  ' (m, effort) <- work_merge (length (ov_keys s1) + length (ov_keys s2)) m s1 s2 starting 0%Z fuel;
  ' (m, effort) <- work_copy1 (length (ov_keys s1)) m s1 starting effort fuel;
  ' (m, effort) <- work_copy2 (length (ov_keys s2)) m s2 starting effort fuel;
  Some (m, (fuel - effort)%Z).

(** *** Cursor, ord_neu.rs:565-642 *)
Record OrdValCursor := { ovc_key : nat; ovc_val : nat }.
(* ord_neu.rs:306-312 *)
Definition ovc_new : OrdValCursor := {| ovc_key := 0; ovc_val := 0 |}.
(* 607 *)
Definition ovc_key_valid (b : OrdValBatch) (c : OrdValCursor) : bool := ovc_key c <? length (ov_keys (ov_storage b)).
(* 608 *)
Definition ovc_val_valid (b : OrdValBatch) (c : OrdValCursor) : option bool :=
  ' (_, upper) <- vals_bounds (ov_storage b) (ovc_key c); Some (ovc_val c <? upper).
(* 598, 599 *)
Definition ovc_get_key_abs (b : OrdValBatch) (c : OrdValCursor) : option K := get (ov_keys (ov_storage b)) (ovc_key c).
Definition ovc_get_val_abs (b : OrdValBatch) (c : OrdValCursor) : option V := get (v_vals (ov_storage b)) (ovc_val c).
(* 595: keys.get(), which does not panic *)
Definition ovc_get_key (b : OrdValBatch) (c : OrdValCursor) : option (option K) :=
  Some (get (ov_keys (ov_storage b)) (ovc_key c)).
(* 596 *)
Definition ovc_get_val (b : OrdValBatch) (c : OrdValCursor) : option (option V) :=
  valid <- ovc_val_valid b c;
  if (valid : bool) then v <- ovc_get_val_abs b c; Some (Some v) else Some None.
(* 600-606 *)
Definition ovc_map_times (b : OrdValBatch) (c : OrdValCursor) : option (list (T * R)) :=
  upds_list (ov_upds (ov_storage b)) (ovc_val c).
(* 639-641 *)
Definition ovc_rewind_vals (b : OrdValBatch) (c : OrdValCursor) : option OrdValCursor :=
  ' (lower, _) <- vals_bounds (ov_storage b) (ovc_key c); Some {| ovc_key := ovc_key c; ovc_val := lower |}.
(* 609-617 *)
Definition ovc_step_key (b : OrdValBatch) (c : OrdValCursor) : option OrdValCursor :=
  let c := {| ovc_key := ovc_key c + 1; ovc_val := ovc_val c |} in
  if ovc_key_valid b c then ovc_rewind_vals b c
  else Some {| ovc_key := length (ov_keys (ov_storage b)); ovc_val := ovc_val c |}.
(* 618-623 *)
Definition ovc_seek_key (b : OrdValBatch) (c : OrdValCursor) (key : K) : option OrdValCursor :=
  let keys := ov_keys (ov_storage b) in
  n <- advance (fun x => ltb x key) keys (ovc_key c) (length keys);
  let c := {| ovc_key := ovc_key c + n; ovc_val := ovc_val c |} in
  if ovc_key_valid b c then ovc_rewind_vals b c else Some c.
(* 624-629 *)
Definition ovc_step_val (b : OrdValBatch) (c : OrdValCursor) : option OrdValCursor :=
  let c := {| ovc_key := ovc_key c; ovc_val := ovc_val c + 1 |} in
  valid <- ovc_val_valid b c;
  if (valid : bool) then Some c
  else ' (_, upper) <- vals_bounds (ov_storage b) (ovc_key c); Some {| ovc_key := ovc_key c; ovc_val := upper |}.
(* 630-632 *)
Definition ovc_seek_val (b : OrdValBatch) (c : OrdValCursor) (val : V) : option OrdValCursor :=
  ' (_, upper) <- vals_bounds (ov_storage b) (ovc_key c);
  n <- advance (fun x => ltb x val) (v_vals (ov_storage b)) (ovc_val c) upper;
  Some {| ovc_key := ovc_key c; ovc_val := ovc_val c + n |}.
(* 633-638 *)
Definition ovc_rewind_keys (b : OrdValBatch) (c : OrdValCursor) : option OrdValCursor :=
  let c := {| ovc_key := 0; ovc_val := ovc_val c |} in
  if ovc_key_valid b c then ovc_rewind_vals b c else Some c.

(* ord_neu.rs:579-642 *)
Definition ov_ops : CursorOps OrdValBatch OrdValCursor K V T R := {|
  c_key_valid := fun b c => Some (ovc_key_valid b c); c_val_valid := ovc_val_valid;
  c_key := ovc_get_key_abs; c_val := ovc_get_val_abs; c_get_key := ovc_get_key; c_get_val := ovc_get_val;
  c_map_times := ovc_map_times; c_step_key := ovc_step_key; c_seek_key := ovc_seek_key;
  c_step_val := ovc_step_val; c_seek_val := ovc_seek_val;
  c_rewind_keys := ovc_rewind_keys; c_rewind_vals := ovc_rewind_vals |}.

(** *** Builder, ord_neu.rs:645-732, with the input of implementations/mod.rs:316-366 *)
Record OrdValBuilder := { ovb_result : OrdValStorage; ovb_staging : UpdsBuilder T R }.
Definition ovb_new : OrdValBuilder := {| ovb_result := ov_storage_new; ovb_staging := ub_new |}.

(* ord_neu.rs:680-710, one item *)
Definition ovb_push1 (b : OrdValBuilder) (item : K * V * T * R) : OrdValBuilder :=
  let '(key, val, time, diff) := item in
  let s := ovb_result b in
  match ov_keys s with
  | [] =>
      {| ovb_result := {| ov_keys := ov_keys s ++ [key]; v_offs := v_offs s; v_vals := v_vals s ++ [val]; ov_upds := ov_upds s |};
         ovb_staging := ub_push (ovb_staging b) time diff |}
  | _ =>
    if opt_eqb (last_opt (ov_keys s)) key then
      if opt_eqb (last_opt (v_vals s)) val then
        {| ovb_result := s; ovb_staging := ub_push (ovb_staging b) time diff |}
      else
        let '(st, u, _) := ub_seal (ovb_staging b) (ov_upds s) in
        {| ovb_result := {| ov_keys := ov_keys s; v_offs := v_offs s; v_vals := v_vals s ++ [val]; ov_upds := u |};
           ovb_staging := ub_push st time diff |}
    else
      let '(st, u, _) := ub_seal (ovb_staging b) (ov_upds s) in
      {| ovb_result := {| ov_keys := ov_keys s ++ [key]; v_offs := v_offs s ++ [length (v_vals s)];
                          v_vals := v_vals s ++ [val]; ov_upds := u |};
         ovb_staging := ub_push st time diff |}
  end.
Definition ovb_push (b : OrdValBuilder) (chunk : list (K * V * T * R)) : OrdValBuilder := fold_left ovb_push1 chunk b.

(* ord_neu.rs:713-721 *)
Definition ovb_done (b : OrdValBuilder) (d : Description T) : OrdValBatch :=
  let s := ovb_result b in
  let '(st, u, _) := ub_seal (ovb_staging b) (ov_upds s) in
  {| ov_storage := {| ov_keys := ov_keys s; v_offs := v_offs s ++ [length (v_vals s)]; v_vals := v_vals s; ov_upds := u |};
     ov_desc := d; ov_updates := total st |}.

(* ord_neu.rs:723-731; the counts only set capacities *)
Definition ovb_seal (chain : list (list (K * V * T * R))) (d : Description T) : OrdValBatch :=
  ovb_done (fold_left ovb_push chain ovb_new) d.
End OrdVal.
Arguments OrdValStorage : clear implicits.
Arguments OrdValBatch : clear implicits.
Arguments OrdValMerger : clear implicits.
Arguments OrdValBuilder : clear implicits.

(** ** key_batch -- ord_neu.rs:735-1134
    The values are [unit]; in Rust any type with a [Default] value, of which only that value occurs. *)
Section OrdKey.
Context {K T R : Type} {OK : Ord K} {TT : Time T} {DR : Diff R} {OR : Ord R}.

(* ord_neu.rs:757-762 *)
Record OrdKeyStorage := { ok_keys : list K; ok_upds : Upds T R }.
(* ord_neu.rs:776-790; [value] is the single default value *)
Record OrdKeyBatch := { ok_storage : OrdKeyStorage; ok_desc : Description T; ok_updates : nat }.
Definition ok_storage_new : OrdKeyStorage := {| ok_keys := []; ok_upds := upds_new |}.

(* ord_neu.rs:834-845 *)
Definition ok_empty (lower upper : list T) : option OrdKeyBatch :=
  d <- desc_new lower upper [tmin];
  Some {| ok_storage := ok_storage_new; ok_desc := d; ok_updates := 0 |}.

(* ord_neu.rs:849-861 *)
Record OrdKeyMerger := {
  okm_kc1 : nat; okm_kc2 : nat; okm_result : OrdKeyStorage; okm_desc : Description T; okm_staging : UpdsBuilder T R }.

(* ord_neu.rs:867-889 *)
Definition okm_new (b1 b2 : OrdKeyBatch) (compaction_frontier : list T) : option OrdKeyMerger :=
  if ac_eqb (d_upper (ok_desc b1)) (d_lower (ok_desc b2)) then
    let since := antichain_lattice_join (d_since (ok_desc b1)) (d_since (ok_desc b2)) in
    let since := antichain_lattice_join since compaction_frontier in
    d <- desc_new (d_lower (ok_desc b1)) (d_upper (ok_desc b2)) since;
    Some {| okm_kc1 := 0; okm_kc2 := 0; okm_result := ok_storage_new; okm_desc := d; okm_staging := ub_new |}
  else None.

(* ord_neu.rs:890-897 *)
Definition okm_done (m : OrdKeyMerger) : OrdKeyBatch :=
  {| ok_storage := okm_result m; ok_desc := okm_desc m; ok_updates := total (okm_staging m) |}.

Local Notation St := (OrdKeyStorage * UpdsBuilder T R)%type.

(* ord_neu.rs:973-983 *)
Definition stash_updates_for_key (since : list T) (st : St) (source : OrdKeyStorage) (index : nat) : option St :=
  l <- upds_list (ok_upds source) index;
  Some (fst st, fold_left (fun b x => ub_push b (advance_by (fst x) since) (snd x)) l (snd st)).

(* [if self.staging.seal(..) { self.result.keys.push_ref(k) }], ord_neu.rs:939-941, 958-960 *)
Definition seal_key (st : St) (k : K) : St :=
  let '(b, u, nonempty) := ub_seal (snd st) (ok_upds (fst st)) in
  ({| ok_keys := if nonempty : bool then ok_keys (fst st) ++ [k] else ok_keys (fst st); ok_upds := u |}, b).

(* ord_neu.rs:937-942 *)
Definition okm_copy_key (since : list T) (st : St) (source : OrdKeyStorage) (cursor : nat) : option St :=
  st <- stash_updates_for_key since st source cursor;
  k <- get (ok_keys source) cursor;
  Some (seal_key st k).

Definition okm_set (m : OrdKeyMerger) (kc1 kc2 : nat) (st : St) : OrdKeyMerger :=
  {| okm_kc1 := kc1; okm_kc2 := kc2; okm_result := fst st; okm_desc := okm_desc m; okm_staging := snd st |}.

(* ord_neu.rs:947-970 *)
Definition okm_merge_key (m : OrdKeyMerger) (source1 source2 : OrdKeyStorage) : option OrdKeyMerger :=
  let since := d_since (okm_desc m) in
  let st := (okm_result m, okm_staging m) in
  k1 <- get (ok_keys source1) (okm_kc1 m);
  k2 <- get (ok_keys source2) (okm_kc2 m);
  match cmp k1 k2 with
  | Lt => st <- okm_copy_key since st source1 (okm_kc1 m); Some (okm_set m (okm_kc1 m + 1) (okm_kc2 m) st)
  | Eq =>
      st <- stash_updates_for_key since st source1 (okm_kc1 m);
      st <- stash_updates_for_key since st source2 (okm_kc2 m);
      Some (okm_set m (okm_kc1 m + 1) (okm_kc2 m + 1) (seal_key st k1))
  | Gt => st <- okm_copy_key since st source2 (okm_kc2 m); Some (okm_set m (okm_kc1 m) (okm_kc2 m + 1) st)
  end.

Definition okm_effort (starting : nat) (m : OrdKeyMerger) : Z := Z.of_nat (total (okm_staging m) - starting).

(* ord_neu.rs:905-909 *)
Fixpoint okm_work_merge (rounds : nat) (m : OrdKeyMerger) (s1 s2 : OrdKeyStorage) (starting : nat) (effort fuel : Z)
  : option (OrdKeyMerger * Z) :=
  if (okm_kc1 m <? length (ok_keys s1)) && (okm_kc2 m <? length (ok_keys s2)) && (effort <? fuel)%Z then
    match rounds with
    | 0 => None
    | S rounds => m <- okm_merge_key m s1 s2; okm_work_merge rounds m s1 s2 starting (okm_effort starting m) fuel
    end
  else Some (m, effort).

(* ord_neu.rs:913-917 *)
Fixpoint okm_work_copy1 (rounds : nat) (m : OrdKeyMerger) (s1 : OrdKeyStorage) (starting : nat) (effort fuel : Z)
  : option (OrdKeyMerger * Z) :=
  if (okm_kc1 m <? length (ok_keys s1)) && (effort <? fuel)%Z then
    match rounds with
    | 0 => None
    | S rounds =>
        st <- okm_copy_key (d_since (okm_desc m)) (okm_result m, okm_staging m) s1 (okm_kc1 m);
        let m := okm_set m (okm_kc1 m + 1) (okm_kc2 m) st in
        okm_work_copy1 rounds m s1 starting (okm_effort starting m) fuel
    end
  else Some (m, effort).

(* ord_neu.rs:918-922 *)
Fixpoint okm_work_copy2 (rounds : nat) (m : OrdKeyMerger) (s2 : OrdKeyStorage) (starting : nat) (effort fuel : Z)
  : option (OrdKeyMerger * Z) :=
  if (okm_kc2 m <? length (ok_keys s2)) && (effort <? fuel)%Z then
    match rounds with
    | 0 => None
    | S rounds =>
        st <- okm_copy_key (d_since (okm_desc m)) (okm_result m, okm_staging m) s2 (okm_kc2 m);
        let m := okm_set m (okm_kc1 m) (okm_kc2 m + 1) st in
        okm_work_copy2 rounds m s2 starting (okm_effort starting m) fuel
    end
  else Some (m, effort).

(* ord_neu.rs:898-925 *)
Definition okm_work (m : OrdKeyMerger) (b1 b2 : OrdKeyBatch) (fuel : Z) : option (OrdKeyMerger * Z) :=
  let s1 := ok_storage b1 in
  let s2 := ok_storage b2 in
  let starting := total (okm_staging m) in
  ' (m, effort) <- okm_work_merge (length (ok_keys s1) + length (ok_keys s2)) m s1 s2 starting 0%Z fuel;
  ' (m, effort) <- okm_work_copy1 (length (ok_keys s1)) m s1 starting effort fuel;
  ' (m, effort) <- okm_work_copy2 (length (ok_keys s2)) m s2 starting effort fuel;
  Some (m, (fuel - effort)%Z).

(** *** Cursor, ord_neu.rs:987-1059 *)
Record OrdKeyCursor := { okc_key : nat; okc_stepped : bool }.
(* ord_neu.rs:807-813 *)
Definition okc_new : OrdKeyCursor := {| okc_key := 0; okc_stepped := false |}.
(* 1029, 1030 *)
Definition okc_key_valid (b : OrdKeyBatch) (c : OrdKeyCursor) : bool := okc_key c <? length (ok_keys (ok_storage b)).
Definition okc_val_valid (c : OrdKeyCursor) : bool := negb (okc_stepped c).
(* 1020, 1021 *)
Definition okc_get_key_abs (b : OrdKeyBatch) (c : OrdKeyCursor) : option K := get (ok_keys (ok_storage b)) (okc_key c).
Definition okc_get_val_abs (b : OrdKeyBatch) (c : OrdKeyCursor) : option unit := Some tt.
(* 1017, 1018 *)
Definition okc_get_key (b : OrdKeyBatch) (c : OrdKeyCursor) : option (option K) :=
  Some (get (ok_keys (ok_storage b)) (okc_key c)).
Definition okc_get_val (b : OrdKeyBatch) (c : OrdKeyCursor) : option (option unit) :=
  if okc_val_valid c then v <- okc_get_val_abs b c; Some (Some v) else Some None.
(* 1022-1028 *)
Definition okc_map_times (b : OrdKeyBatch) (c : OrdKeyCursor) : option (list (T * R)) :=
  upds_list (ok_upds (ok_storage b)) (okc_key c).
(* 1056-1058 *)
Definition okc_rewind_vals (b : OrdKeyBatch) (c : OrdKeyCursor) : option OrdKeyCursor :=
  Some {| okc_key := okc_key c; okc_stepped := false |}.
(* 1031-1039 *)
Definition okc_step_key (b : OrdKeyBatch) (c : OrdKeyCursor) : option OrdKeyCursor :=
  let c := {| okc_key := okc_key c + 1; okc_stepped := okc_stepped c |} in
  if okc_key_valid b c then okc_rewind_vals b c
  else Some {| okc_key := length (ok_keys (ok_storage b)); okc_stepped := okc_stepped c |}.
(* 1040-1045 *)
Definition okc_seek_key (b : OrdKeyBatch) (c : OrdKeyCursor) (key : K) : option OrdKeyCursor :=
  let keys := ok_keys (ok_storage b) in
  n <- advance (fun x => ltb x key) keys (okc_key c) (length keys);
  let c := {| okc_key := okc_key c + n; okc_stepped := okc_stepped c |} in
  if okc_key_valid b c then okc_rewind_vals b c else Some c.
(* 1046-1048 *)
Definition okc_step_val (b : OrdKeyBatch) (c : OrdKeyCursor) : option OrdKeyCursor :=
  Some {| okc_key := okc_key c; okc_stepped := true |}.
(* 1049 *)
Definition okc_seek_val (b : OrdKeyBatch) (c : OrdKeyCursor) (val : unit) : option OrdKeyCursor := Some c.
(* 1050-1055 *)
Definition okc_rewind_keys (b : OrdKeyBatch) (c : OrdKeyCursor) : option OrdKeyCursor :=
  let c := {| okc_key := 0; okc_stepped := okc_stepped c |} in
  if okc_key_valid b c then okc_rewind_vals b c else Some c.

(* ord_neu.rs:1001-1059 *)
Definition ok_ops : CursorOps OrdKeyBatch OrdKeyCursor K unit T R := {|
  c_key_valid := fun b c => Some (okc_key_valid b c); c_val_valid := fun _ c => Some (okc_val_valid c);
  c_key := okc_get_key_abs; c_val := okc_get_val_abs; c_get_key := okc_get_key; c_get_val := okc_get_val;
  c_map_times := okc_map_times; c_step_key := okc_step_key; c_seek_key := okc_seek_key;
  c_step_val := okc_step_val; c_seek_val := okc_seek_val;
  c_rewind_keys := okc_rewind_keys; c_rewind_vals := okc_rewind_vals |}.

(** *** Builder, ord_neu.rs:1062-1132 *)
Record OrdKeyBuilder := { okb_result : OrdKeyStorage; okb_staging : UpdsBuilder T R }.
Definition okb_new : OrdKeyBuilder := {| okb_result := ok_storage_new; okb_staging := ub_new |}.

(* ord_neu.rs:1094-1110 *)
Definition okb_push1 (b : OrdKeyBuilder) (item : K * unit * T * R) : OrdKeyBuilder :=
  let '(key, _, time, diff) := item in
  let s := okb_result b in
  match ok_keys s with
  | [] => {| okb_result := {| ok_keys := ok_keys s ++ [key]; ok_upds := ok_upds s |};
             okb_staging := ub_push (okb_staging b) time diff |}
  | _ =>
    if opt_eqb (last_opt (ok_keys s)) key then
      {| okb_result := s; okb_staging := ub_push (okb_staging b) time diff |}
    else
      let '(st, u, _) := ub_seal (okb_staging b) (ok_upds s) in
      {| okb_result := {| ok_keys := ok_keys s ++ [key]; ok_upds := u |}; okb_staging := ub_push st time diff |}
  end.
Definition okb_push (b : OrdKeyBuilder) (chunk : list (K * unit * T * R)) : OrdKeyBuilder := fold_left okb_push1 chunk b.

(* ord_neu.rs:1113-1121 *)
Definition okb_done (b : OrdKeyBuilder) (d : Description T) : OrdKeyBatch :=
  let s := okb_result b in
  let '(st, u, _) := ub_seal (okb_staging b) (ok_upds s) in
  {| ok_storage := {| ok_keys := ok_keys s; ok_upds := u |}; ok_desc := d; ok_updates := total st |}.

(* ord_neu.rs:1123-1131 *)
Definition okb_seal (chain : list (list (K * unit * T * R))) (d : Description T) : OrdKeyBatch :=
  okb_done (fold_left okb_push chain okb_new) d.
End OrdKey.
Arguments OrdKeyStorage : clear implicits.
Arguments OrdKeyBatch : clear implicits.
Arguments OrdKeyMerger : clear implicits.
Arguments OrdKeyBuilder : clear implicits.
