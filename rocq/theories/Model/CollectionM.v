(** * Model of differential-dataflow/src/collection.rs: the operators that work update by update

    A stream is the list of its messages, each a container of updates sent at the time of a capability.
    An operator's output on a worker depends on the messages it receives, in order; what timely does to
    carry them there (exchange, scheduling) is not modelled, except that [concat] interleaves. *)
From Verif Require Export Base.Lattice Base.Difference Model.JoinM.

Definition stream (T X : Type) := list (T * list X).

(** timely's [Refines] (timely 0.31, progress/timestamp.rs): an inner timestamp that extends an outer one *)
Record RefinesOps (T1 T2 : Type) := { to_inner : T1 -> T2; to_outer : T2 -> T1 }.
Arguments to_inner {T1 T2}. Arguments to_outer {T1 T2}.

Section Ops.
Context {D T R : Type}.
Notation update := (D * T * R)%type.

(* a unary operator that transforms each container and keeps its time *)
Definition each {T X Y : Type} (f : list X -> list Y) (s : stream T X) : stream T Y := map (fun m => (fst m, f (snd m))) s.

(* collection.rs:371-379, by timely's [map] *)
Definition c_map {D2} (logic : D -> D2) (s : stream T update) : stream T (D2 * T * R) :=
  each (map (fun u => (logic (fst (fst u)), snd (fst u), snd u))) s.
(* 398-405 map_in_place *)
Definition c_map_in_place (logic : D -> D) : stream T update -> stream T update := c_map logic.
(* 422-432 *)
Definition c_flat_map {D2} (logic : D -> list D2) (s : stream T update) : stream T (D2 * T * R) :=
  each (flat_map (fun u => map (fun x => (x, snd (fst u), snd u)) (logic (fst (fst u))))) s.
(* 446-453 *)
Definition c_filter (logic : D -> bool) (s : stream T update) : stream T update :=
  each (filter (fun u => logic (fst (fst u)))) s.
(* 474-484 explode: [d2.multiply(&d)] *)
Definition c_explode {D2 R2 R3} {DR : Diff R} {D2' : Diff R2} {D3 : Diff R3} {MU : Multiply R2 R R3} (logic : D -> list (D2 * R2))
    (s : stream T update) : stream T (D2 * T * R3) :=
  each (flat_map (fun u => map (fun x => (fst x, snd (fst u), dmul (snd x) (snd u))) (logic (fst (fst u))))) s.
(* 508-519 join_function: [t.join(&t2)] *)
Definition c_join_function {D2 R2 R3} {TT : Time T} {DR : Diff R} {D2' : Diff R2} {D3 : Diff R3} {MU : Multiply R2 R R3}
    (logic : D -> list (D2 * T * R2)) (s : stream T update) : stream T (D2 * T * R3) :=
  each (flat_map (fun u => map (fun x => (fst (fst x), join (snd (fst u)) (snd (fst x)), dmul (snd x) (snd u))) (logic (fst (fst u))))) s.
(* 187-195 with 1350-1355 *)
Definition c_negate {DR : Diff R} {AR : Abelian R} (s : stream T update) : stream T update :=
  each (map (fun u => (fst u, dneg (snd u)))) s.
(* 602-609, 628-635, 134-142: the stream itself *)
Definition c_inspect (s : stream T update) : stream T update := s.
(* 217-228 with 1357-1362; timely's stream [enter] moves the messages' times *)
Definition c_enter {T2} (rf : RefinesOps T T2) (s : stream T update) : stream T2 (D * T2 * R) :=
  map (fun m => (to_inner rf (fst m), map (fun u => (fst (fst u), to_inner rf (snd (fst u)), snd u)) (snd m))) s.
(* 290-303 with 1364-1369 *)
Definition c_leave {T1} (rf : RefinesOps T1 T) (s : stream T update) : stream T1 (D * T1 * R) :=
  map (fun m => (to_outer rf (fst m), map (fun u => (fst (fst u), to_outer rf (snd (fst u)), snd u)) (snd m))) s.
(* 251-261 with 1371-1376; [step] is the path summary's [results_in], [None] when the time cannot be
   represented.  The message keeps its time: the edge the stream is connected to applies the summary. *)
Definition c_results_in (step : T -> option T) (s : stream T update) : stream T update :=
  each (flat_map (fun u => match step (snd (fst u)) with Some t => [(fst (fst u), t, snd u)] | None => [] end)) s.
(* 544-556 *)
Definition c_enter_at {TI} {TTI : Time TI} (initial : D -> TI) (s : stream T update) : stream (T * TI) (D * (T * TI) * R) :=
  map (fun m => ((fst m, tmin), map (fun u => (fst (fst u), (snd (fst u), initial (fst (fst u))), snd u)) (snd m))) s.
(* 565-577: timely's [delay_batch] retains each message until the frontier reaches [func] of its time, and
   panics if [func] is not extensive there; the order in which messages are released is not modelled *)
Fixpoint c_delay {TT : Time T} (func : T -> T) (s : stream T update) : option (stream T update) :=
  match s with
  | [] => Some []
  | m :: s =>
      if tle (fst m) (func (fst m)) then
        s <- c_delay func s;
        Some ((func (fst m), map (fun u => (fst (fst u), func (snd (fst u)), snd u)) (snd m)) :: s)
      else None
  end.
End Ops.

(* 71-75, 98-106, 1299-1308: messages arrive in the order of each stream, interleaved in any way *)
Inductive c_concat {T X} : stream T X -> stream T X -> stream T X -> Prop :=
| cc_nil : c_concat [] [] []
| cc_l : forall m s1 s2 s, c_concat s1 s2 s -> c_concat (m :: s1) s2 (m :: s)
| cc_r : forall m s1 s2 s, c_concat s1 s2 s -> c_concat s1 (m :: s2) (m :: s).
Inductive c_concatenate {T X} : list (stream T X) -> stream T X -> Prop :=
| cs_nil : c_concatenate [] []
| cs_cons : forall s ss r r', c_concatenate ss r -> c_concat s r r' -> c_concatenate (s :: ss) r'.

(** The product of timestamps (timely's order/mod.rs): [to_inner] pairs with the minimum. *)
Definition product_refines {T1 T2} {TT : Time T2} : RefinesOps T1 (T1 * T2) := {| to_inner := fun t => (t, tmin); to_outer := fst |}.
(* dynamic/pointstamp.rs:104-112 *)
Definition unit_refines {T2} {TT : Time T2} : RefinesOps unit T2 := {| to_inner := fun _ => tmin; to_outer := fun _ => tt |}.

(* collection.rs:1004-1026 consolidate_stream: each message's updates pass through a
   ConsolidatingContainerBuilder and the containers it produces are sent at the message's time; the model
   flushes the builder after each message (timely may keep it open across messages of the same time) *)
Fixpoint c_consolidate_stream {D T R} {OD : Ord D} {TT : Time T} {DR : Diff R} (preferred : nat) (alloc : nat -> nat) (s : stream T (D * T * R))
  : option (stream T (D * T * R)) :=
  match s with
  | [] => Some []
  | m :: s =>
      b <- push_all preferred alloc (snd m) ccb_default;
      ' (b, ready) <- finish_all preferred alloc b [];
      s <- c_consolidate_stream preferred alloc s;
      Some (map (fun c => (fst m, c)) ready ++ s)
  end.
