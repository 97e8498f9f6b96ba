(** What a backend of the proxy join has to do. *)
From Verif Require Export Spec.JoinOpSpec Model.ProxyJoinM.

Section ProxyJoinSpec.
Context {B1 M1 B2 M2 K V1 V2 D T R1 R2 R3 H I S : Type} {OK : Ord K} {OV1 : Ord V1} {OV2 : Ord V2} {OD : Ord D} {OH : Ord H} {OI : Ord I} {TT : Time T}
  {D1 : Diff R1} {D2 : Diff R2} {D3 : Diff R3} {MU : Multiply R1 R2 R3}.
Variable ops1 : BatchOps B1 M1 T. Variable contents1 : B1 -> list (K * V1 * T * R1). Variable laws1 : BatchLaws (D:=K*V1) ops1 contents1.
Variable ops2 : BatchOps B2 M2 T. Variable contents2 : B2 -> list (K * V2 * T * R2). Variable laws2 : BatchLaws (D:=K*V2) ops2 contents2.
Variable backend : JoinBackend B1 B2 T R1 R2 R3 (D * T * R3) H I S.
Variable result : K -> V1 -> V2 -> list D.
(** the hash of a key: two keys may have the same *)
Variable hash : K -> H.

(** An update loaded at [m]: its time may have been advanced, up to its join with [m]. *)
Definition loaded {E R} (m : T) (u u' : E * T * R) : Prop :=
  fst (fst u') = fst (fst u) /\ snd u' = snd u /\ tle (snd (fst u)) (snd (fst u')) = true /\ tle (snd (fst u')) (join (snd (fst u)) m) = true.
(** A bridge shows a collection: it is sorted and consolidated, an identifier stands for one key and value,
    whose hash comes with it, and different identifiers for different ones; and what it says of them is the collection, as loaded. *)
Definition bridge_shows {V R} {OV : Ord V} {DR : Diff R} (m : T) (meaning : H * I -> K * V) (p : bridge H I T R) (c : list (K * V * T * R)) : Prop :=
  consolidated (A:=H*I*T) p /\
  (forall u, In u p -> hash (fst (meaning (fst (fst u)))) = fst (fst (fst u))) /\
  (forall u u', In u p -> In u' p -> meaning (fst (fst u)) = meaning (fst (fst u')) -> fst (fst u) = fst (fst u')) /\
  exists c', Forall2 (loaded (E:=K*V) m) c c' /\ same_weights (A:=K*V*T) (map (fun u => (meaning (fst (fst u)), snd (fst u), snd u)) p) c'.
(** What a match stands for: nothing, if the keys differ although their hashes do not. *)
Definition stands_for (meaning1 : H * I -> K * V1) (meaning2 : H * I -> K * V2) (x : jmatch (H:=H) (I:=I) (T:=T) (RO:=R3)) : list (D * T * R3) :=
  let '(l, r, t, d) := x in
  if eqb (fst (meaning1 l)) (fst (meaning2 r)) then map (fun e => (e, t, d)) (result (fst (meaning1 l)) (snd (meaning1 l)) (snd (meaning2 r))) else [].
(** Crossing any matches gives the updates they stand for, at the times of the matches, however often it is asked. *)
Definition crosses (inst : JoinInstance B1 B2 T) (meaning1 : H * I -> K * V1) (meaning2 : H * I -> K * V2) (p1 : bridge H I T R1) (p2 : bridge H I T R2) (s : S) : Prop :=
  exists inv : S -> Prop, inv s /\
  forall s ms s' c, inv s -> Forall (fun x : jmatch => In (fst (fst (fst x))) (map (fun u => fst (fst u)) p1) /\ In (snd (fst (fst x))) (map (fun u => fst (fst u)) p2)) ms ->
    jb_cross backend inst (map (fun x => fst (fst (fst x))) ms) (map (fun x => snd (fst (fst x))) ms) (map (fun x => snd (fst x)) ms) (map snd ms) s = (s', c) ->
    inv s' /\ same_weights (A:=D*T) c (flat_map (stands_for meaning1 meaning2) ms) /\ Forall (fun u => In (snd (fst u)) (map (fun x => snd (fst x)) ms)) c.
(** Some of a collection: at least all keys with the hashes asked for. *)
Definition restricted {V R} (keys : list H) (c c' : list (K * V * T * R)) : Prop :=
  exists keep : K -> bool, (forall k, In (hash k) keys -> keep k = true) /\ c' = filter (fun u => keep (fst (fst (fst u)))) c.

Definition hashes_of {R} (p : bridge H I T R) : list H := map (fun u => fst (fst (fst u))) p.
(** The contract: whichever input is fresh, it is presented in full, then of the other what has the hashes of the first (the keys asked for are
    those hashes, each once in order); and the two bridges are then crossed as they mean. *)
Definition keeps_contract : Prop :=
  forall bs1 bs2 m s, Forall (bl_ok _ _ laws1) bs1 -> Forall (bl_ok _ _ laws2) bs2 ->
    let inst := {| ji_batches0 := bs1; ji_batches1 := bs2; ji_lower := [m] |} in
    (forall s1 p1, jb_present0 backend inst None s = (s1, p1) -> exists meaning1, bridge_shows m meaning1 p1 (flat_map contents1 bs1) /\
       forall keys s2 p2, (forall h, In h keys <-> In h (hashes_of p1)) -> strictly_sorted keys -> jb_present1 backend inst (Some keys) s1 = (s2, p2) ->
       exists meaning2 c2, restricted keys (flat_map contents2 bs2) c2 /\ bridge_shows m meaning2 p2 c2 /\ crosses inst meaning1 meaning2 p1 p2 s2) /\
    (forall s1 p2, jb_present1 backend inst None s = (s1, p2) -> exists meaning2, bridge_shows m meaning2 p2 (flat_map contents2 bs2) /\
       forall keys s2 p1, (forall h, In h keys <-> In h (hashes_of p2)) -> strictly_sorted keys -> jb_present0 backend inst (Some keys) s1 = (s2, p1) ->
       exists meaning1 c1, restricted keys (flat_map contents1 bs1) c1 /\ bridge_shows m meaning1 p1 c1 /\ crosses inst meaning1 meaning2 p1 p2 s2).
End ProxyJoinSpec.
