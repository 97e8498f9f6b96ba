(** C08, C09: the merge batcher and its merger. *)
From Verif Require Import Proofs.MergeBatcherP.

(** ** C08
    A client pushes non-empty consolidated chunks (as the chunker produces, C07) and seals at arbitrary
    frontiers.  [history_correct] (Spec/BatcherSpec.v) says what every sealed batch must contain. *)
Definition client_ok {D T R} {OD : Ord D} {TT : Time T} {DR : Diff R} (o : bop (D:=D) (T:=T) (R:=R)) : Prop :=
  match o with OPush c => c <> [] /\ consolidated (A:=D*T) c | OSeal _ => True end.
Definition as_op {D T R} (o : bop (D:=D) (T:=T) (R:=R)) : mb_op (T:=T) (Chunk:=list (D * T * R)) :=
  match o with OPush c => MPush c | OSeal up => MSeal up end.

Lemma flat_id {X} (ls : list (list X)) : concat (map (fun c => c) ls) = concat ls.
Proof. rewrite map_id; auto. Qed.

Lemma as_op_spec {D T R} (ops : list (bop (D:=D) (T:=T) (R:=R))) : map (op_spec (fun c => c)) (map as_op ops) = ops.
Proof. induction ops as [|[c|u] ops IH]; simpl; f_equal; auto. Qed.

Lemma client_ok_good {D T R} {OD : Ord D} {TT : Time T} {DR : Diff R} (ops : list (bop (D:=D) (T:=T) (R:=R))) :
  Forall client_ok ops -> Forall (op_good vm_good) (map as_op ops).
Proof.
  induction 1 as [|[c|u] ops H Hs IH]; simpl; constructor; auto; simpl; auto.
  destruct H as [Hn Hc]. split.
  - constructor; [exact Hn | constructor].
  - simpl. rewrite app_nil_r. exact Hc.
Qed.

Lemma vec_batcher_ok {D T R} {OD : Ord D} {TT : Time T} {DR : Diff R} (cap : list (D * T * R) -> bool) ops :
  cap [] = false -> Forall client_ok ops -> exists b outs,
    mb_run (vm_merge cap) (vm_extract cap) vm_len mb_new (map as_op ops) = Some (b, outs) /\
    history_correct [] [tmin] ops (map (fun o => (concat (fst (fst o)), snd (fst o), snd o)) outs).
Proof.
  intros Hcap Hops.
  destruct (mb_run_new_ok (vm_merge cap) (vm_extract cap) vm_len (fun c => c) vm_good) with (ops := map as_op ops)
    as [b [outs [E H]]].
  - split; [constructor | apply consolidated_nil].
  - intros c [_ H]. unfold flat. rewrite flat_id. exact H.
  - intros a b Ha Hb. destruct (vm_merge_ok cap Hcap a b Ha Hb) as [o [E [G W]]]. exists o; repeat split; try apply G; auto.
    intros x. unfold flat. rewrite !flat_id, W. apply merge2_weight.
  - intros m up Hm. destruct (vm_extract_ok cap Hcap m up Hm) as [f [s [k [E [Gs [Gk [Ef [Es Ek]]]]]]]].
    exists f, s, k. unfold flat. rewrite !flat_id. repeat split; try apply Gs; try apply Gk; auto.
    + rewrite Ef; apply ac_from_antichain.
    + rewrite Ef; apply ac_from_beyond.
    + rewrite Ef; apply ac_from_beyond.
    + rewrite Es; apply same_weights_refl.
    + rewrite Ek; apply same_weights_refl.
  - apply client_ok_good; auto.
  - exists b, outs. split; auto. rewrite as_op_spec in H. unfold flat in H.
    erewrite map_ext; [exact H|]. intros [[r d] f]; simpl. rewrite flat_id; auto.
Qed.

Theorem c08_batcher_partitions : forall (D T R : Type) (OD : Ord D) (TT : Time T) (DR : Diff R)
  (at_capacity : list (D * T * R) -> bool), at_capacity [] = false ->
  forall ops, Forall client_ok ops -> exists b outs,
    mb_run (vm_merge at_capacity) (vm_extract at_capacity) vm_len mb_new (map as_op ops) = Some (b, outs) /\
    history_correct [] [tmin] ops (map (fun o => (concat (fst (fst o)), snd (fst o), snd o)) outs).
Proof. intros D T R OD TT DR cap Hcap ops Hops. exact (vec_batcher_ok cap ops Hcap Hops). Qed.
Print Assumptions c08_batcher_partitions.

(** The number of chains held is logarithmic: the i-th newest chain has at least 2^(i+1)-2 updates. *)
Theorem c08_chains_geometric : forall (T : Type) (TT : Time T) (Chunk : Type) mrg ext len (b b' : batcher (T:=T) (Chunk:=Chunk)),
  ladder (mb_chains b) ->
  (forall c, mb_push mrg len b c = Some b' -> ladder (mb_chains b')) /\
  (forall up r d, mb_seal mrg ext len b up = Some (b', r, d) -> ladder (mb_chains b')) /\
  (forall i c, nth_error (mb_chains b) i = Some c -> 2 ^ (S i) <= fst c + 2).
Proof.
  intros T TT Chunk mrg ext len b b' H.
  exact (conj (fun c => mb_push_ladder mrg len b c b' H)
        (conj (fun up r d => mb_seal_ladder mrg ext len b up b' r d) (fun i c => ladder_bound _ i c H))).
Qed.
Print Assumptions c08_chains_geometric.

Example c08_client_ok : Forall (client_ok (D:=nat) (T:=nat) (R:=Z))
  [OPush [((100, 5), 1%Z)]; OPush [((1, 0), 1%Z); ((7, 2), 3%Z)]; OPush [((100, 5), (-1)%Z); ((100, 7), 1%Z)]; OSeal [3]].
Proof.
  repeat constructor; simpl; try discriminate.
Qed.
Example c08_ex :
  option_map snd (mb_run (vm_merge (fun l => length l =? 2)) (vm_extract (fun l => length l =? 2)) vm_len mb_new
    (map as_op [OPush [((100, 5), 1%Z)]; OPush [((1, 0), 1%Z); ((7, 2), 3%Z)];
                OPush [((100, 5), (-1)%Z); ((100, 7), 1%Z)]; OSeal [3]; OSeal []]))
  = Some [([[((1, 0), 1%Z); ((7, 2), 3%Z)]], ([0], [3], [0]), [7]); ([[((100, 7), 1%Z)]], ([3], [], [0]), [])].
Proof. vm_compute; reflexivity. Qed.
Example c08_ladder_ex : ladder (Chunk:=list nat) [(2, []); (6, []); (20, [])].
Proof. repeat constructor. Qed.

(** ** C09 *)
Theorem c09_merge : forall (D T R : Type) (OD : Ord D) (TT : Time T) (DR : Diff R)
  (at_capacity : list (D * T * R) -> bool), at_capacity [] = false ->
  forall list1 list2, Forall (fun c => c <> []) list1 -> Forall (fun c => c <> []) list2 ->
    consolidated (A:=D*T) (concat list1) -> consolidated (A:=D*T) (concat list2) ->
  exists out, vm_merge at_capacity list1 list2 = Some out /\
    Forall (fun c => c <> []) out /\ consolidated (A:=D*T) (concat out) /\
    (forall dt, weight (A:=D*T) (concat out) dt = weight (A:=D*T) (concat list1 ++ concat list2) dt).
Proof.
  intros D T R OD TT DR cap Hcap l1 l2 N1 N2 C1 C2.
  destruct (vm_merge_ok cap Hcap l1 l2 (conj N1 C1) (conj N2 C2)) as [o [E [[No Co] W]]].
  exists o. split; [exact E|]. split; [exact No|]. split; [exact Co|]. rewrite W. exact (merge2_weight _ _).
Qed.
Print Assumptions c09_merge.

Theorem c09_extract : forall (D T R : Type) (OD : Ord D) (TT : Time T) (DR : Diff R)
  (at_capacity : list (D * T * R) -> bool), at_capacity [] = false ->
  forall merged upper, Forall (fun c => c <> []) merged -> consolidated (A:=D*T) (concat merged) ->
  exists frontier ship kept, vm_extract at_capacity merged upper = Some (frontier, ship, kept) /\
    concat ship = filter (fun u => negb (beyondb upper (time_of u))) (concat merged) /\
    concat kept = filter (fun u => beyondb upper (time_of u)) (concat merged) /\
    Forall (fun c => c <> []) ship /\ Forall (fun c => c <> []) kept /\
    antichain frontier /\ (forall t, beyond frontier t <-> beyond (map time_of (concat kept)) t).
Proof.
  intros D T R OD TT DR cap Hcap m up N C.
  destruct (vm_extract_ok cap Hcap m up (conj N C)) as [f [s [k [E [[Ns _] [[Nk _] [Ef [Es Ek]]]]]]]].
  exists f, s, k. rewrite Ef.
  exact (conj (eq_trans E (f_equal (fun x => Some (x, s, k)) Ef)) (conj Es (conj Ek (conj Ns (conj Nk (conj (ac_from_antichain _) (ac_from_beyond _))))))).
Qed.
Print Assumptions c09_extract.

(** Finding: non-emptiness of the chunks is needed; a chain with a leading empty chunk is appended, not merged. *)
Theorem c09_merge_empty_chunk_refuted :
  ~ (forall list1 list2 out, consolidated (A:=nat*nat) (R:=Z) (concat list1) -> consolidated (A:=nat*nat) (concat list2) ->
       vm_merge (fun l => length l =? 4) list1 list2 = Some out -> consolidated (A:=nat*nat) (concat out)).
Proof.
  intros H.
  specialize (H [[]; [((5, 0), 1%Z)]] [[((1, 0), 1%Z); ((7, 0), 1%Z)]]
                          [[((1, 0), 1%Z); ((7, 0), 1%Z)]; [((5, 0), 1%Z)]]).
  assert (consolidated (A:=nat*nat) (R:=Z) [((1, 0), 1%Z); ((7, 0), 1%Z); ((5, 0), 1%Z)]) as [Hs _].
  { apply H; [repeat constructor.. | reflexivity]. }
  inversion Hs as [| |? ? ? _ Hs2]; subst. inversion Hs2 as [| |? ? ? Hlt _]; subst. discriminate Hlt.
Qed.
Print Assumptions c09_merge_empty_chunk_refuted.

Example c09_ex : vm_merge (fun l => length l =? 2) [[((1, 0), 1%Z); ((2, 0), 1%Z)]; [((4, 0), 1%Z)]]
     [[((2, 0), (-1)%Z)]; [((3, 0), 1%Z)]; [((5, 0), 2%Z)]]
  = Some [[((1, 0), 1%Z); ((3, 0), 1%Z)]; [((4, 0), 1%Z)]; [((5, 0), 2%Z)]].
Proof. vm_compute; reflexivity. Qed.
