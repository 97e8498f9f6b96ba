(** C06, C07: consolidation and consolidating builders. *)
From Verif Require Import Proofs.BuilderP Proofs.LatticeP.

(** ** C06
    [srt] is the sort used by the in-place code, any function returning a sorted permutation. *)
Definition sorts {A R} {OA : Ord A} (srt : list (A * R) -> list (A * R)) : Prop :=
  (forall l, Permutation (srt l) l) /\ (forall l, key_sorted (srt l)).

Theorem c06_consolidate : forall (A R : Type) (OA : Ord A) (DR : Diff R) srt, sorts srt ->
  forall vec : list (A * R), exists out,
    consolidate_inplace srt vec = Some out /\
    strictly_sorted (map fst out) /\ Forall (fun x => is_zero (snd x) = false) out /\
    (forall a, weight out a = weight vec a).
Proof.
  intros A R OA DR srt [Hp Hs] vec. exists (consolidate vec).
  exact (conj (consolidate_inplace_ok srt Hp Hs vec) (conj (proj1 (consolidate_consolidated vec))
        (conj (proj2 (consolidate_consolidated vec)) (consolidate_weight vec)))).
Qed.
Print Assumptions c06_consolidate.

(** The result depends on the totals only. *)
Theorem c06_canonical : forall (A R : Type) (OA : Ord A) (DR : Diff R) srt1 srt2, sorts srt1 -> sorts srt2 ->
  forall v1 v2 : list (A * R), (forall a, weight v1 a = weight v2 a) ->
  consolidate_inplace srt1 v1 = consolidate_inplace srt2 v2.
Proof.
  intros A R OA DR srt1 srt2 [Hp1 Hs1] [Hp2 Hs2] v1 v2 H.
  rewrite (consolidate_inplace_ok srt1 Hp1 Hs1 v1), (consolidate_inplace_ok srt2 Hp2 Hs2 v2).
  exact (f_equal Some (consolidate_canonical v1 v2 H)).
Qed.
Print Assumptions c06_canonical.

(** [consolidate_from] leaves the prefix alone and consolidates the rest; beyond the end it panics. *)
Theorem c06_consolidate_from : forall (A R : Type) (OA : Ord A) (DR : Diff R) srt, sorts srt ->
  forall (vec : list (A * R)) offset, offset <= length vec -> exists out,
    consolidate_from_inplace srt vec offset = Some (firstn offset vec ++ out) /\
    strictly_sorted (map fst out) /\ Forall (fun x => is_zero (snd x) = false) out /\
    (forall a, weight out a = weight (skipn offset vec) a).
Proof.
  intros A R OA DR srt [Hp Hs] vec offset Hle. exists (consolidate (skipn offset vec)).
  exact (conj (consolidate_from_inplace_ok srt Hp Hs vec offset Hle)
        (conj (proj1 (consolidate_consolidated _)) (conj (proj2 (consolidate_consolidated _)) (consolidate_weight _)))).
Qed.
Print Assumptions c06_consolidate_from.

(** Bridge used by the rest of the development: the in-place code computes the functional [consolidate]. *)
Theorem consolidate_inplace_correct : forall (A R : Type) (OA : Ord A) (DR : Diff R) srt, sorts srt ->
  forall vec : list (A * R), consolidate_inplace srt vec = Some (consolidate vec).
Proof. intros A R OA DR srt [Hp Hs] vec. exact (consolidate_inplace_ok srt Hp Hs vec). Qed.
Print Assumptions consolidate_inplace_correct.

Example c06_sorts : sorts (A:=nat * nat) (R:=Z) isort.
Proof. exact (conj isort_perm isort_sorted). Qed.
Example c06_ex : consolidate_inplace isort
    [((2, 1), 1%Z); ((1, 1), 3%Z); ((2, 1), (-1)%Z); ((1, 0), 2%Z); ((1, 1), 4%Z); ((3, 0), 5%Z)]
  = Some [((1, 0), 2%Z); ((1, 1), 7%Z); ((3, 0), 5%Z)].
Proof. vm_compute; reflexivity. Qed.
Example c06_from_ex : consolidate_from_inplace isort
    [(9, 0%Z); (2, 1%Z); (1, 3%Z); (2, (-1)%Z)] 1 = Some [(9, 0%Z); (1, 3%Z)] /\
  consolidate_from_inplace isort [(9, 0%Z)] 2 = None.
Proof. vm_compute; auto. Qed.

(** ** C07
    [bpushed ops] / [kpushed ops] are the updates the client pushed, in order. *)
Theorem c07_builder_conserves : forall (A R : Type) (OA : Ord A) (DR : Diff R) preferred alloc, 1 <= preferred ->
  forall ops : list (builder_op (A:=A) (R:=R)), exists b outs,
    ccb_run preferred alloc ccb_default ops = Some (b, outs) /\
    (forall a, weight (concat outs ++ concat (ccb_outbound b) ++ ccb_current b) a = weight (bpushed ops) a) /\
    Forall (fun c => consolidated c /\ c <> [] /\ length c <= preferred) outs.
Proof. intros A R OA DR p alloc Hp ops. exact (ccb_correct p alloc ops Hp). Qed.
Print Assumptions c07_builder_conserves.

Theorem c07_builder_finish_drains : forall (A R : Type) (OA : Ord A) (DR : Diff R) preferred alloc, 1 <= preferred ->
  forall (ops : list (builder_op (A:=A) (R:=R))) b outs b',
    ccb_run preferred alloc ccb_default ops = Some (b, outs) ->
    ccb_finish preferred b = Some (b', None) ->
    forall a, weight (concat outs) a = weight (bpushed ops) a.
Proof. intros A R OA DR p alloc Hp ops b outs b' Hr Hf. exact (ccb_finish_done p alloc ops b outs b' Hp Hr Hf). Qed.
Print Assumptions c07_builder_finish_drains.

Theorem c07_chunker_conserves : forall (A R : Type) (OA : Ord A) (DR : Diff R)
  (ops : list (chunker_op (A:=A) (R:=R))) k outs,
    chunker_run chunker_default ops = (k, outs) ->
    (forall a, weight (concat outs ++ concat (ck_ready k) ++ ck_pending k) a = weight (kpushed ops) a) /\
    Forall (fun c => consolidated c /\ c <> []) outs.
Proof.
  intros A R OA DR ops k outs H.
  exact (conj (proj2 (proj2 (chunker_run_ok ops chunker_default k outs (Forall_nil _) H)))
              (proj1 (proj2 (chunker_run_ok ops chunker_default k outs (Forall_nil _) H)))).
Qed.
Print Assumptions c07_chunker_conserves.

Theorem c07_chunker_finish_drains : forall (A R : Type) (OA : Ord A) (DR : Diff R)
  (ops : list (chunker_op (A:=A) (R:=R))) k outs k',
    chunker_run chunker_default ops = (k, outs) -> ck_finish k = (k', None) ->
    forall a, weight (concat outs) a = weight (kpushed ops) a.
Proof. intros A R OA DR ops k outs k' Hr Hf. exact (chunker_finish_done ops k outs k' Hr Hf). Qed.
Print Assumptions c07_chunker_finish_drains.

Example c07_builder_ex :
  ccb_run 2 (fun n => n) ccb_default
    (map BPush [(3, 1%Z); (1, 1%Z); (2, 5%Z); (1, 1%Z)] ++ [BExtract; BPush (7, 1%Z); BScribble [(9, 9%Z)]; BPush (7, (-1)%Z); BFinish; BFinish])
  = Some ({| ccb_current := []; ccb_cap := 4; ccb_empty := [[(3, 1%Z)]]; ccb_outbound := [] |},
          [[(1, 2%Z); (2, 5%Z)]; [(3, 1%Z)]]).
Proof. vm_compute. reflexivity. Qed.
Example c07_chunker_ex :
  chunker_run chunker_default
    [KPush (fun l => Nat.leb 3 (length l)) [(2, 1%Z); (1, 1%Z); (2, 1%Z); (5, 1%Z)]; KExtract; KScribble [(8, 8%Z)]; KFinish; KFinish]
  = ({| ck_pending := []; ck_ready := []; ck_empty := [(5, 1%Z)] |}, [[(1, 1%Z); (2, 2%Z)]; [(5, 1%Z)]]).
Proof. vm_compute. reflexivity. Qed.
