(** Batches that can be read: the cursor of every valid batch presents its contents. *)
From Verif Require Export Spec.BatchSpec Spec.BatchLaws.
Section Readable.
Context {B M C K V T R : Type} {OK : Ord K} {OV : Ord V} {TT : Time T} {DR : Diff R}.
Definition readable (bops : BatchOps B M T) (contents : B -> list (K * V * T * R)) (laws : BatchLaws (D:=K*V) bops contents)
    (cops : CursorOps B C K V T R) (new : C) : Prop :=
  forall b, bl_ok _ _ laws b -> reads_as cops b new (contents b) /\ consolidated (A:=K*V*T) (contents b).
End Readable.
