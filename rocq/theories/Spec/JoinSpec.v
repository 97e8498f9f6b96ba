(** What a join must produce: every pair of updates with equal keys, times joined, differences multiplied,
    once for each output record of the pair. *)
From Verif Require Export Spec.Collection.

Section JoinSpec.
Context {K V1 V2 D T R1 R2 R3 : Type} {OK : Ord K} {TT : Time T}
  {D1 : Diff R1} {D2 : Diff R2} {D3 : Diff R3} {MU : Multiply R1 R2 R3}.

(** one pair of updates of the same key *)
Definition join_pair (result : K -> V1 -> V2 -> list D) (u1 : K * V1 * T * R1) (u2 : K * V2 * T * R2) : list (D * T * R3) :=
  let '(k1, v1, t1, r1) := u1 in
  let '(k2, v2, t2, r2) := u2 in
  if eqb k1 k2 then map (fun d => (d, join t1 t2, dmul r1 r2)) (result k1 v1 v2) else [].

Definition join_updates (result : K -> V1 -> V2 -> list D) (c1 : list (K * V1 * T * R1)) (c2 : list (K * V2 * T * R2)) : list (D * T * R3) :=
  flat_map (fun u1 => flat_map (join_pair result u1) c2) c1.

(** the pairing result *)
Definition paired (k : K) (v1 : V1) (v2 : V2) : list (K * (V1 * V2)) := [(k, (v1, v2))].
End JoinSpec.
