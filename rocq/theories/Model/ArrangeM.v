(** * Model of differential-dataflow/src/operators/arrange/arrangement.rs:352-520 arrange_core

    One worker's operator: what it does when activated, given the messages delivered and the input
    frontier.  [None] is a panic.  Messages are a capability's time and a container of updates; the
    exchange between workers is timely's.  Capabilities are their times: [retain] gives a capability for
    the message's time, [delayed] needs one at or before the new time. *)
From Verif Require Export Model.BuilderM Model.MergeBatcherM Model.DescriptionM Model.AgentM.

Section Arrange.
Context {B M D T R : Type} {OD : Ord D} {TT : Time T} {DR : Diff R}.
Local Notation U := (D * T * R)%type.
Local Notation chunker := (chunker (A:=D*T) (R:=R)).
Local Notation batcher := (batcher (T:=T) (Chunk:=list U)).
Variable ops : BatchOps B M T.
Variable full : list U -> bool.                                    (* the chunker's capacity test *)
(* the batcher's merger, merge_batcher.rs:189-212 *)
Variable m_merge : list (list U) -> list (list U) -> option (list (list U)).
Variable m_extract : list (list U) -> list T -> option (list T * list (list U) * list (list U)).
Variable m_len : list U -> nat.
Variable build : list (list U) -> Description T -> B.              (* Bu::seal *)

(* 379-402 *)
Record astate := { as_chunker : chunker; as_batcher : batcher; as_caps : list T; as_prev : list T }.
Definition a_start : astate :=
  {| as_chunker := chunker_default; as_batcher := mb_new; as_caps := []; as_prev := [tmin] |}.

(* [std::mem::take]n chunks leave an empty buffer with the chunker *)
Definition taken (k : chunker) : chunker := {| ck_pending := ck_pending k; ck_ready := ck_ready k; ck_empty := [] |}.
(* 414-416 and 432-434, the loops around extract and finish; [fuel] bounds the number of chunks, and
   suffices (theorem) *)
Fixpoint drain (next : chunker -> chunker * option (list U)) (fuel : nat) (k : chunker) (b : batcher) : option (chunker * batcher) :=
  match next k with
  | (k, None) => Some (k, b)
  | (k, Some chunk) =>
      match fuel with
      | 0 => None
      | S fuel => b <- mb_push m_merge m_len b chunk; drain next fuel (taken k) b
      end
  end.
(* 411-417 *)
Definition a_receive (st : option astate) (msg : T * list U) : option astate :=
  st <- st;
  let k := ck_push full (snd msg) (as_chunker st) in
  ' (k, b) <- drain ck_extract (length (ck_ready k)) k (as_batcher st);
  Some {| as_chunker := k; as_batcher := b; as_caps := ac_insert (as_caps st) (fst msg); as_prev := as_prev st |}.
(* MergeBatcher::seal, whose description is made by Description::new *)
Definition a_seal (b : batcher) (upper : list T) : option (batcher * list (list U) * Description T) :=
  ' (b, chain, (lower, upper, since)) <- mb_seal m_merge m_extract m_len b upper;
  description <- desc_new lower upper since;
  Some (b, chain, description).
(* 455-479, for the capabilities from some index on; also the batches sent, and those inserted in the trace *)
Fixpoint a_commit (frontier caps : list T) (b : batcher) (w : World B M T)
  : option (batcher * World B M T * list (T * B) * list (B * option T)) :=
  match caps with
  | [] => Some (b, w, [], [])
  | capability :: later =>
      if negb (ac_less_equal frontier capability) then
        let upper := ac_extend (ac_extend [] frontier) later in
        ' (b, chain, description) <- a_seal b upper;
        let batch := build chain description in
        ' (w, log) <- w_step ops w (CInsert batch (Some capability));
        ' (b, w, outs, log') <- a_commit frontier later b w;
        Some (b, w, (capability, batch) :: outs, log ++ log')
      else a_commit frontier later b w
  end.
(* 486-494 *)
Definition a_downgrade (caps times : list T) : option (list T) :=
  fold_left (fun new t => new <- new;
               match find (fun c => tle c t) caps with Some _ => Some (ac_insert new t) | None => None end) times (Some []).
(* 419-510; also the batches sent, and those inserted in the trace *)
Definition a_work (frontier : list T) (st : astate) (w : World B M T)
  : option (astate * World B M T * list (T * B) * list (B * option T)) :=
  if negb (ac_eqb (as_prev st) frontier) then
    ' (k, b) <- drain ck_finish (S (length (ck_ready (as_chunker st)))) (as_chunker st) (as_batcher st);
    ' (b, caps, w, outs, log) <-
      (if existsb (fun c => negb (ac_less_equal frontier c)) (as_caps st) then
         ' (b, w, outs, log) <- a_commit frontier (as_caps st) b w;
         caps <- a_downgrade (as_caps st) (mb_frontier b);
         Some (b, caps, w, outs, log)
       else
         ' (b, _, _) <- a_seal b frontier;
         ' (w, log) <- w_step ops w (CSeal frontier);
         Some (b, as_caps st, w, [], log));
    Some ({| as_chunker := k; as_batcher := b; as_caps := caps; as_prev := ac_extend [] frontier |}, w, outs, log)
  else Some (st, w, [], []).
(* 404-516 *)
Definition a_activate (msgs : list (T * list U)) (frontier : list T) (answer : option nat) (st : astate) (w : World B M T)
  : option (astate * World B M T * list (T * B) * list (B * option T)) :=
  st <- fold_left a_receive msgs (Some st);
  if negb (ac_le (as_prev st) frontier) then None else
  ' (st, w, outs, log) <- a_work frontier st w;
  ' (w, log') <- w_step ops w (CExert answer);
  Some (st, w, outs, log ++ log').
End Arrange.
Arguments astate : clear implicits.
