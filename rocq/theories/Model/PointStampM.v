(** Model of differential-dataflow/src/dynamic/pointstamp.rs and of the summaries and times of
    differential-dataflow/src/dynamic/mod.rs.  A PointStamp is its vector of coordinates; that the vector
    has no trailing minimum is the predicate [minimal], an invariant of the values built below. *)
From Verif Require Export Base.Lattice Base.Arrays.

Section PointStamp.
Context {T : Type} {TT : Time T}.

(* [self.iter().zip(other.iter().chain(repeat(minimum))).all(f)], the form of all comparisons *)
Fixpoint all_padded (f : T -> T -> bool) (a b : list T) : bool :=
  match a with
  | [] => true
  | x :: a => f x (hd tmin b) && all_padded f a (tl b)
  end.

(* pointstamp.rs:90-101 PartialOrder for PointStamp *)
Definition ps_le (a b : list T) : bool := all_padded tle a b.
(* 45-51 PartialOrder<[T]> for PointStamp, and 53-59 PartialOrder<PointStamp> for [T] *)
Definition ps_le_slice (a s : list T) : bool := all_padded tle a s.
Definition slice_le_ps (s a : list T) : bool := all_padded tle s a.
(* 29-35 PartialEq<[T]> for PointStamp, and 37-43 PartialEq<PointStamp> for [T] *)
Definition ps_eq_slice (a s : list T) : bool := all_padded eqb a s.
Definition slice_eq_ps (s a : list T) : bool := all_padded eqb s a.

(* 65-70 new: pop trailing minima; [fuel] is the length *)
Fixpoint pop_minima (fuel : nat) (v : list T) : list T :=
  match fuel with
  | 0 => v
  | S fuel => match rev v with
              | x :: _ => if eqb x tmin then pop_minima fuel (removelast v) else v
              | [] => v
              end
  end.
Definition ps_new (v : list T) : list T := pop_minima (length v) v.

(* Timestamp::minimum, 219-221; Refines<()>::to_inner 104-107 *)
Definition ps_minimum : list T := ps_new [].

(* 229-245 join.  [zip_with]: coordinates in both *)
Fixpoint zip_with {A B C} (f : A -> B -> C) (a : list A) (b : list B) : list C :=
  match a, b with x :: a, y :: b => f x y :: zip_with f a b | _, _ => [] end.
Definition ps_join (a b : list T) : list T :=
  let min_len := Nat.min (length a) (length b) in
  ps_new (zip_with join a b ++ skipn min_len a ++ skipn min_len b).
(* 247-257 join_assign: no call of [new] *)
Definition ps_join_assign (a b : list T) : list T :=
  let my_len := length a in
  let min_len := Nat.min my_len (length b) in
  let v := zip_with join a b ++ skipn min_len a in
  if my_len <? length b then v ++ skipn my_len b else v.
(* 259-268 meet *)
Definition ps_meet (a b : list T) : list T := ps_new (zip_with meet a b).
(* 270-277 meet_assign *)
Definition ps_meet_assign (a b : list T) : list T :=
  let v := firstn (Nat.min (length a) (length b)) a in
  let v := zip_with meet v b in
  pop_minima (length v) v.
End PointStamp.

(** ** Path summaries
    timely's [PathSummary]: [None] means that the resulting time or summary does not exist. *)
Section Summary.
Context {T Sm : Type} {TT : Time T}.
Variable results_in : Sm -> T -> option T.
Variable followed_by : Sm -> Sm -> option Sm.
Variable s_le : Sm -> Sm -> bool.
Variable s_default : Sm.

(* pointstamp.rs:123-133 *)
Record PointStampSummary := { retain : option nat; actions : list Sm }.

Definition slice_to {A} (r : option nat) (v : list A) : list A :=
  match r with
  | Some r => if r <? length v then firstn r v else v
  | None => v
  end.

Fixpoint mapO {A B} (f : A -> option B) (l : list A) : option (list B) :=
  match l with [] => Some [] | x :: l => y <- f x; r <- mapO f l; Some (y :: r) end.

(* 135-162 results_in *)
Definition pss_results_in (s : PointStampSummary) (v : list T) : option (list T) :=
  let timestamps := slice_to (retain s) v in
  let min_len := Nat.min (length timestamps) (length (actions s)) in
  both <- mapO (fun x => results_in (fst x) (snd x)) (combine (actions s) timestamps);
  rest <- mapO (fun a => results_in a tmin) (skipn min_len (actions s));
  Some (ps_new (both ++ skipn min_len timestamps ++ rest)).

(* 163-196 followed_by *)
Definition pss_followed_by (s o : PointStampSummary) : option PointStampSummary :=
  let r := match retain s, retain o with
           | Some x, Some y => Some (Nat.min x y)
           | Some x, None => Some x
           | None, Some y => Some y
           | None, None => None
           end in
  let self_actions := slice_to (retain o) (actions s) in
  let min_len := Nat.min (length self_actions) (length (actions o)) in
  both <- mapO (fun x => followed_by (fst x) (snd x)) (combine self_actions (actions o));
  Some {| retain := r; actions := both ++ skipn min_len self_actions ++ skipn min_len (actions o) |}.

Definition opt_nat_eqb (a b : option nat) : bool :=
  match a, b with Some x, Some y => x =? y | None, None => true | _, _ => false end.
(* 199-213 PartialOrder for PointStampSummary *)
Definition pss_le (s o : PointStampSummary) : bool :=
  opt_nat_eqb (retain s) (retain o) && (length (actions s) <=? length (actions o)) &&
  forallb (fun x => s_le (fst x) (snd x)) (combine (actions s) (actions o)).

(* dynamic/mod.rs:69-77 feedback_summary; [level - 1] panics at zero *)
Definition feedback_summary (level : nat) (summary : Sm) : option PointStampSummary :=
  match level with
  | 0 => None
  | S l => Some {| retain := None; actions := repeat s_default l ++ [summary] |}
  end.
(* dynamic/mod.rs:43: the summary declared by leave_dynamic *)
Definition leave_summary (level : nat) : option PointStampSummary :=
  match level with
  | 0 => None
  | S l => Some {| retain := Some l; actions := [] |}
  end.
End Summary.
Arguments PointStampSummary : clear implicits.

(* dynamic/mod.rs:49-52 and 55-58: what leave_dynamic does to times; the outer coordinate is kept *)
Definition leave_time {O T} {TT : Time T} (level : nat) (t : O * list T) : option (O * list T) :=
  match level with
  | 0 => None
  | S l => Some (fst t, ps_new (firstn l (snd t)))
  end.
(* dynamic/mod.rs:35-37 *)
Definition enter_time {O T} (level : nat) (t : O * list T) : O * list T := t.
