(** What a backend of the proxy reduce has to do. *)
From Coq Require Import Sorting.Sorted.
From Verif Require Export Spec.ReduceSpec Model.ProxyTacticM.
From Verif Require Import Base.Order.

Section ProxyReduceSpec.
Context {B1 M1 B2 M2 K V1 V2 T R1 R2 H I S : Type} {OK : Ord K} {OV1 : Ord V1} {OV2 : Ord V2} {OH : Ord H} {OI : Ord I} {TT : Time T} {D1 : Diff R1} {D2 : Diff R2}.
Variable bops1 : BatchOps B1 M1 T. Variable contents1 : B1 -> list (K * V1 * T * R1). Variable laws1 : BatchLaws (D:=K*V1) bops1 contents1.
Variable bops2 : BatchOps B2 M2 T. Variable contents2 : B2 -> list (K * V2 * T * R2). Variable laws2 : BatchLaws (D:=K*V2) bops2 contents2.
Variable backend : ReduceBackend B1 B2 T R1 R2 H I S.
(** the hash of a key: two keys may have the same *)
Variable hash : K -> H.
(** the reduction: what the output of a key should be, for its input *)
Variable F : K -> list (V1 * R1) -> V2 -> R2.

(** What identifiers stand for, under each hash: keys with that hash, and their values.  Not all need stand for something. *)
Definition meaning (V : Type) : Type := H -> I -> option (K * V).
Definition sound {V} (mn : meaning V) : Prop := forall h i k v, mn h i = Some (k, v) -> hash k = h.
Definition extends {V} (mn mn' : meaning V) : Prop := forall h i kv, mn h i = Some kv -> mn' h i = Some kv.
Definition named {V R} (mn : meaning V) (h : H) (l : list (I * R)) : list (K * V * R) :=
  flat_map (fun x => match mn h (fst x) with Some kv => [(kv, snd x)] | None => [] end) l.
Definition shown {V R} (mn : meaning V) (p : bridge H I T R) : list (K * V * T * R) :=
  flat_map (fun u => match mn (fst (fst (fst u))) (snd (fst (fst u))) with Some kv => [(kv, snd (fst u), snd u)] | None => [] end) p.
Definition all_named {V R} (mn : meaning V) (h : H) (l : list (I * R)) : Prop := Forall (fun x => mn h (fst x) <> None) l.
Definition all_shown {V R} (mn : meaning V) (p : bridge H I T R) : Prop := Forall (fun u => mn (fst (fst (fst u))) (snd (fst (fst u))) <> None) p.

(** A bridge shows a collection, for some hashes: it is sorted and consolidated, all of it stands for something, and the keys with those
    hashes accumulate to the same at all times from [lower] on. *)
Definition shows {V R} {OV : Ord V} {DR : Diff R} (mn : meaning V) (lower : list T) (keys : list H) (p : bridge H I T R) (c : list (K * V * T * R)) : Prop :=
  consolidated (A:=H*I*T) p /\ all_shown mn p /\
  forall k v t, In (hash k) keys -> beyond lower t -> acc (shown mn p) (k, v) t = acc c (k, v) t.
(** Corrections are right: they turn the output of each key with the hash into the reduction of its input. *)
Definition corrects (mn1 : meaning V1) (mn2 : meaning V2) (request : H * list (I * R1) * list (I * R2)) (cs : list (I * R2)) : Prop :=
  let '(h, ins, outs) := request in
  all_named mn2 h cs /\
  forall k, hash k = h -> forall i, consolidated i -> (forall a, weight i a = weight (named mn1 h ins) (k, a)) ->
  forall v, weight (named mn2 h (outs ++ cs)) (k, v) = F k i v.
(** where each list ends in the concatenation of all *)
Fixpoint ends {X} (n : nat) (ls : list (list X)) : list nat := match ls with [] => [] | l :: ls => (n + length l) :: ends (n + length l) ls end.

(** The contract.  [idle] is true of the backend's state between rounds.  [session] relates its state during a round to the
    position in the list of changed hashes, the hashes of the current window, what identifiers mean in it, and what was emitted for each of
    the descriptions so far. *)
Definition well_formed (inst : ReduceInstance B1 B2 T) : Prop :=
  Forall (bl_ok _ _ laws1) (ri_source inst) /\ Forall (bl_ok _ _ laws1) (ri_input inst) /\ Forall (bl_ok _ _ laws2) (ri_output inst).
Record serves (idle : S -> Prop)
  (session : ReduceInstance B1 B2 T -> list H -> list (Description T) -> nat -> list H -> meaning V1 -> meaning V2 -> list (list (K * V2 * T * R2)) -> S -> Prop) : Prop := {
  (** the seeds are the times of the new updates, by hash *)
  sv_seeds : forall inst s, idle s -> well_formed inst ->
    StronglySorted le (map fst (rb_seed_times backend inst s)) /\
    forall h t, In (h, t) (rb_seed_times backend inst s) <-> exists u, In u (flat_map contents1 (ri_input inst)) /\ hash (fst (fst (fst u))) = h /\ snd (fst u) = t;
  sv_begin : forall inst s changed descs, idle s -> well_formed inst ->
    session inst changed descs 0 [] (fun _ _ => None) (fun _ _ => None) (map (fun _ => []) descs) (rb_begin backend descs s);
  (** the windows are successive parts of the changed hashes, and show the histories of their keys *)
  sv_window : forall inst changed descs cursor keys mn1 mn2 emitted s, session inst changed descs cursor keys mn1 mn2 emitted s -> cursor < length changed -> strictly_sorted changed ->
    exists s' cursor' w mn1' mn2', rb_next_window backend inst changed cursor s = (s', cursor', Some w) /\
      cursor < cursor' <= length changed /\ w_keys w = firstn (cursor' - cursor) (skipn cursor changed) /\ sound mn1' /\ sound mn2' /\
      shows mn1' (ri_lower inst) (w_keys w) (w_input w) (flat_map contents1 (ri_source inst ++ ri_input inst)) /\
      shows mn2' (ri_lower inst) (w_keys w) (w_output w) (flat_map contents2 (ri_output inst)) /\
      session inst changed descs cursor' (w_keys w) mn1' mn2' emitted s';
  sv_done : forall inst changed descs keys mn1 mn2 emitted s, session inst changed descs (length changed) keys mn1 mn2 emitted s ->
    exists s' cursor' mn1' mn2', rb_next_window backend inst changed (length changed) s = (s', cursor', None) /\ session inst changed descs (length changed) keys mn1' mn2' emitted s';
  (** asked with identifiers that stand for something, it gives corrections, which may be of new identifiers *)
  sv_corrections : forall inst changed descs cursor keys mn1 mn2 emitted s requests, session inst changed descs cursor keys mn1 mn2 emitted s -> sound mn1 -> sound mn2 ->
    strictly_sorted (map (fun r => fst (fst r)) requests) ->
    Forall (fun r => let '(h, ins, outs) := r in In h keys /\ consolidated ins /\ consolidated outs /\ (ins <> [] \/ outs <> []) /\ all_named mn1 h ins /\ all_named mn2 h outs) requests ->
    exists s' cs mn2', rb_corrections backend (map (fun r => fst (fst r)) requests) (ends 0 (map (fun r => snd (fst r)) requests)) (concat (map (fun r => snd (fst r)) requests))
                         (ends 0 (map snd requests)) (concat (map snd requests)) s = (s', (concat cs, ends 0 cs)) /\
      extends mn2 mn2' /\ sound mn2' /\ Forall2 (corrects mn1 mn2') requests cs /\ session inst changed descs cursor keys mn1 mn2' emitted s';
  sv_emit : forall inst changed descs cursor keys mn1 mn2 emitted s tile d records, session inst changed descs cursor keys mn1 mn2 emitted s ->
    nth_error descs tile = Some d -> consolidated (A:=H*I*T) records -> all_shown mn2 records ->
    Forall (fun u => In (fst (fst (fst u))) keys /\ beyond (d_lower d) (snd (fst u)) /\ ~ beyond (d_upper d) (snd (fst u))) records ->
    session inst changed descs cursor keys mn1 mn2 (add_at tile (shown mn2 records) emitted) (rb_emit backend tile records s);
  (** the batches have the updates emitted for each of the descriptions *)
  sv_finish : forall inst changed descs keys mn1 mn2 emitted s, session inst changed descs (length changed) keys mn1 mn2 emitted s ->
    exists s' batches, rb_finish backend s = (s', batches) /\ idle s' /\
      Forall2 (fun de b => bl_ok _ _ laws2 b /\ b_desc bops2 b = fst de /\ same_weights (A:=K*V2*T) (contents2 b) (snd de) /\
                 Forall (fun u => In (snd (fst u)) (map (fun u => snd (fst u)) (snd de))) (contents2 b)) (List.combine descs emitted) batches
}.
End ProxyReduceSpec.
