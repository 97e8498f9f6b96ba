(** * Model of differential-dataflow/src/operators/int_proxy/join.rs: joining by proxies
    Hashes and identifiers, [u64] in the code, are of any ordered types [H] and [I].  [None] is a panic. *)
From Verif Require Export Model.JoinM Model.JoinDriverM.

(** int_proxy/mod.rs:52-55 ProxyBridge *)
Notation bridge H I T R := (list (H * I * T * R)).

Section ProxyJoin.
Context {B0 B1 T R0 R1 RO X H I S : Type} {OH : Ord H} {OI : Ord I} {TT : Time T} {D0 : Diff R0} {D1 : Diff R1} {DO : Diff RO} {MU : Multiply R0 R1 RO}.

(* int_proxy/join.rs:18-26 *)
Record JoinInstance := { ji_batches0 : list B0; ji_batches1 : list B1; ji_lower : list T }.
(* int_proxy/join.rs:32-54 ProxyJoinBackend: its methods take the backend by mutable reference, here they return its state *)
Record JoinBackend := {
  jb_present0 : JoinInstance -> option (list H) -> S -> S * bridge H I T R0;
  jb_present1 : JoinInstance -> option (list H) -> S -> S * bridge H I T R1;
  jb_cross : JoinInstance -> list (H * I) -> list (H * I) -> list T -> list RO -> S -> S * list X
}.
Variable backend : JoinBackend.
(** JOIN_CHUNK, int_proxy/join.rs:85: 1 << 20 *)
Variable join_chunk : nat.

(* a match: the entries pushed to [li], [ri], [ot] and [od] *)
Definition jmatch : Type := (H * I) * (H * I) * T * RO.

(* join_key, int_proxy/join.rs:168-218.  The matches are listed here, and given to [flush] by [push_matches] below; whether it is
   called has no influence on the matches that follow. *)
Definition join_key (kh : H) (r0 : bridge H I T R0) (r1 : bridge H I T R1) : option (list jmatch) :=
  if (length r0 <? 16) || (length r1 <? 16) then
    Some (flat_map (fun a => map (fun b => ((kh, snd (fst (fst a))), (kh, snd (fst (fst b))), join (snd (fst a)) (snd (fst b)), dmul (snd a) (snd b))) r1) r0)
  else
    h0 <- load_iter (map (fun a => (snd (fst (fst a)), snd (fst a), snd a)) r0) None;
    h1 <- load_iter (map (fun b => (snd (fst (fst b)), snd (fst b), snd b)) r1) None;
    out <- bilinear_wave h0 h1;
    Some (map (fun x : I * I * T * RO => let '(v0, v1, t, d) := x in ((kh, v0), (kh, v1), t, d)) out).

(* [flush], int_proxy/join.rs:132-136 *)
Definition pj_flush (inst : JoinInstance) (buf : list jmatch) (s : S) (out : list (list X)) : S * list (list X) :=
  let '(s, c) := jb_cross backend inst (map (fun m => fst (fst (fst m))) buf) (map (fun m => snd (fst (fst m))) buf)
                   (map (fun m => snd (fst m)) buf) (map snd buf) s in
  (s, out ++ [c]).
(* the pushes of a key's matches, each followed by the check of the length: 191-195, 206-213 *)
Fixpoint push_matches (inst : JoinInstance) (ms buf : list jmatch) (s : S) (out : list (list X)) : list jmatch * S * list (list X) :=
  match ms with
  | [] => (buf, s, out)
  | m :: ms =>
      let buf := buf ++ [m] in
      if join_chunk <=? length buf then let '(s, out) := pj_flush inst buf s out in push_matches inst ms [] s out
      else push_matches inst ms buf s out
  end.

(* the run of a hash: 149-152 *)
Fixpoint run_of {R} (kh : H) (p : bridge H I T R) : bridge H I T R * bridge H I T R :=
  match p with
  | u :: p' => if eqb (fst (fst (fst u))) kh then let '(r, rest) := run_of kh p' in (u :: r, rest) else ([], p)
  | [] => ([], [])
  end.
(* the merge of the bridges: 145-158.  The positions [i] and [j] are what is left of the bridges; [fuel] bounds the rounds *)
Fixpoint pj_merge (fuel : nat) (inst : JoinInstance) (p0 : bridge H I T R0) (p1 : bridge H I T R1) (buf : list jmatch) (s : S) (out : list (list X))
  : option (list jmatch * S * list (list X)) :=
  match p0, p1 with
  | a :: p0', b :: p1' =>
      match fuel with
      | 0 => None
      | Datatypes.S fuel =>
          let ki := fst (fst (fst a)) in
          let kj := fst (fst (fst b)) in
          if ltb ki kj then pj_merge fuel inst p0' p1 buf s out
          else if ltb kj ki then pj_merge fuel inst p0 p1' buf s out
          else
            let '(r0, rest0) := run_of ki p0 in
            let '(r1, rest1) := run_of ki p1 in
            ms <- join_key ki r0 r1;
            let '(buf, s, out) := push_matches inst ms buf s out in
            pj_merge fuel inst rest0 rest1 buf s out
      end
  | _, _ => Some (buf, s, out)
  end.

(* [p.iter().map(|r| r.0.0).collect()], [dedup]: 109-110, 117-118 *)
Definition bridge_keys {R} (p : bridge H I T R) : list H := dedup (map (fun r => fst (fst (fst r))) p).
(* 120-164, with both bridges *)
Definition pj_bridged (inst : JoinInstance) (p0 : bridge H I T R0) (p1 : bridge H I T R1) (s : S) : option (list (list X)) :=
  match p0, p1 with
  | [], _ | _, [] => Some []
  | _, _ =>
      ' (buf, s, out) <- pj_merge (length p0 + length p1) inst p0 p1 [] s [];
      match buf with
      | [] => Some out
      | _ => let '(_, out) := pj_flush inst buf s out in Some out
      end
  end.
(* join_prep, int_proxy/join.rs:93-164; the debug assertions are not checked *)
Definition join_prep (input0 : list B0) (input1 : list B1) (fresh0 : bool) (m : T) (s : S) : option (list (list X)) :=
  let inst := {| ji_batches0 := input0; ji_batches1 := input1; ji_lower := [m] |} in
  if fresh0 then
    let '(s, p0) := jb_present0 backend inst None s in
    match p0 with
    | [] => Some []
    | _ => let '(s, p1) := jb_present1 backend inst (Some (bridge_keys p0)) s in pj_bridged inst p0 p1 s
    end
  else
    let '(s, p1) := jb_present1 backend inst None s in
    match p1 with
    | [] => Some []
    | _ => let '(s, p0) := jb_present0 backend inst (Some (bridge_keys p1)) s in pj_bridged inst p0 p1 s
    end.

(* ProxyJoinTactic, int_proxy/join.rs:57-82: the work is the list of containers.  Simplified: a container without updates is passed over (it
   counts nothing, and there is nothing in it to send); the backend's state is the same, [s], whenever work is prepared. *)
Fixpoint next_container (cs : list (list X)) : list (list X) * option (list X) :=
  match cs with
  | [] => ([], None)
  | [] :: cs => next_container cs
  | c :: cs => (cs, Some c)
  end.
Definition proxy_tactic (s : S) : JoinTactic B0 B1 T (list (list X)) X := {|
  jt_prep := fun input0 input1 fresh0 m => join_prep input0 input1 fresh0 m s;
  jt_next := fun w => Some (next_container w) |}.
End ProxyJoin.
Arguments JoinInstance : clear implicits. Arguments JoinBackend : clear implicits.
