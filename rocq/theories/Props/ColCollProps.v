(** C57: columnar collections: containers and their operations, the builder, the exchange and the chunker. *)
From Verif Require Import Proofs.ConsolidationP Proofs.LatticeP Props.ConsolidationProps Proofs.BilinearP.
From Verif Require Import Spec.ColCollSpec Model.ColumnarM Model.ColCollM Proofs.ColListsP Proofs.ColReadP Proofs.ColCollP Proofs.ColChunkerP Proofs.ColDistP Base.Collections Base.Order.

(** ** Containers
    [rec_rows c] is what iterating over the container gives, and [rec_made c] says how it came about. *)
Theorem c57_made : forall (K V T R : Type) (OK : Ord K) (OV : Ord V) (TT : Time T) (DR : Diff R) (c : RecordedUpdates K V T R), rec_made c ->
  updates_iter (ru_updates c) = Some (rec_rows c) /\ updates_len (ru_updates c) = length (rec_rows c) /\ (ru_consolidated c = true -> consolidated (A:=K*V*T) (rec_rows c)).
Proof. intros K V T R OK OV TT DR c H. split; [apply rec_read; auto|]. split; [apply rec_len; auto|apply rec_flag; auto]. Qed.
Print Assumptions c57_made.

Theorem c57_negate : forall (K V T R : Type) (OK : Ord K) (OV : Ord V) (TT : Time T) (DR : Diff R) (AR : Abelian R) (c : RecordedUpdates K V T R), rec_made c ->
  rec_made (ru_negate c) /\ rec_rows (ru_negate c) = map (fun x => (fst x, dneg (snd x))) (rec_rows c) /\ ru_records (ru_negate c) = ru_records c /\ ru_consolidated (ru_negate c) = ru_consolidated c.
Proof. intros K V T R OK OV TT DR AR c H. destruct (negate_ok c H) as [H1 H2]. split; auto. Qed.
Print Assumptions c57_negate.

(** Entering a scope keeps the claim that a container is consolidated: the times must keep their order. *)
Theorem c57_enter : forall (K V T1 T2 R : Type) (OK : Ord K) (OV : Ord V) (TT1 : Time T1) (TT2 : Time T2) (DR : Diff R) (f : T1 -> T2), (forall a b, lt a b -> lt (f a) (f b)) ->
  forall c : RecordedUpdates K V T1 R, rec_made c ->
  rec_made (ru_enter f c) /\ rec_rows (ru_enter f c) = map (fun '(k, v, t, d) => (k, v, f t, d)) (rec_rows c) /\ ru_records (ru_enter f c) = ru_records c /\ ru_consolidated (ru_enter f c) = ru_consolidated c.
Proof. intros K V T1 T2 R OK OV TT1 TT2 DR f Hf c H. destruct (enter_ok f c Hf H) as [H1 H2]. split; auto. Qed.
Print Assumptions c57_enter.
Theorem c57_leave : forall (K V T1 T2 R : Type) (OK : Ord K) (OV : Ord V) (TT1 : Time T1) (TT2 : Time T2) (DR : Diff R) srt, sorts (A:=K*V*T2) srt ->
  forall (f : T1 -> T2) (c : RecordedUpdates K V T1 R), rec_made c -> exists c', ru_leave srt f c = Some c' /\ rec_made c' /\ ru_consolidated c' = true /\ ru_records c' = ru_records c /\ (counted c -> counted c') /\
    same_weights (A:=K*V*T2) (rec_rows c') (map (fun '(k, v, t, d) => (k, v, f t, d)) (rec_rows c)).
Proof. intros K V T1 T2 R OK OV TT1 TT2 DR srt [Hp Hs] f c H. destruct (leave_ok srt Hp Hs f c H) as (c' & H1 & H2 & H3 & H4 & H5 & H6 & H7). exists c'. split; auto. split; auto. split; auto. split; auto. split; auto. unfold counted. lia. Qed.
Print Assumptions c57_leave.
(** [step] gives no time for the updates that are dropped. *)
Theorem c57_results_in : forall (K V T R : Type) (OK : Ord K) (OV : Ord V) (TT : Time T) (DR : Diff R) (step : T -> option T) (c : RecordedUpdates K V T R), rec_made c ->
  exists c', ru_results_in step c = Some c' /\ rec_made c' /\ ru_records c' = ru_records c /\ (counted c -> counted c') /\
    rec_rows c' = flat_map (fun '(k, v, t, d) => match step t with Some t' => [(k, v, t', d)] | None => [] end) (rec_rows c).
Proof.
  intros K V T R OK OV TT DR step c H. destruct (results_in_ok step c H) as (c' & H1 & H2 & H3 & H4 & H5). exists c'. split; auto. split; auto. split; auto. split; auto. unfold counted. rewrite H3, H4. intros L. etransitivity; [|exact L]. clear.
  unfold stepped. induction (rec_rows c) as [|[[[k v] t] d] l IH]; [auto|]. cbn [flat_map length]. rewrite app_length. destruct (step t); cbn [length]; lia.
Qed.
Print Assumptions c57_results_in.

(** ** The builder: whatever is pushed, extracted and finished, the containers given are the consolidations of
    consecutive stretches of what was pushed, each stretch of at most [target + 1] updates *)
Theorem c57_builder : forall (K V T R : Type) (OK : Ord K) (OV : Ord V) (TT : Time T) (DR : Diff R) srt, sorts (A:=K*V*T) srt ->
  forall target (ops : list (vb_op (K:=K) (V:=V) (T:=T) (R:=R))), exists b given, vb_run srt target vb_default ops = Some (b, given) /\
  exists b' rest segs, vb_drain srt (length (vb_pushed ops) + 2) b = Some (b', rest) /\ vb_finish srt b' = Some (b', None) /\ concat segs = vb_pushed ops /\
    Forall2 (fun seg c => rec_made c /\ ru_consolidated c = true /\ same_weights (A:=K*V*T) (rec_rows c) seg /\ ru_records c = length seg /\ counted c /\ 0 < length seg <= S target) segs (given ++ rest).
Proof.
  intros K V T R OK OV TT DR srt [Hp Hs] target ops. destruct (builder_ok srt Hp Hs target ops) as (b & out & E & b' & rest & segs & E' & HF & HE & HN). exists b, out. split; auto. exists b', rest, segs. split; auto. split; auto. split; auto.
  clear -HF. induction HF as [|seg c segs l HB HF IH]; constructor; auto. destruct HB as (H1 & H2 & H3 & H4 & H5 & H6 & H7). auto 10.
Qed.
Print Assumptions c57_builder.

(** ** The chunker: whatever is pushed, extracted and finished, the chunks given are well made and add up to
    what was pushed *)
Theorem c57_chunker : forall (K V T R : Type) (OK : Ord K) (OV : Ord V) (TT : Time T) (DR : Diff R) srt, sorts (A:=K*V*T) srt -> forall target, 0 < target ->
  forall ops : list (tc_op (K:=K) (V:=V) (T:=T) (R:=R)), Forall rec_made (tc_pushed ops) -> exists c given, tc_run srt target tc_default ops = Some (c, given) /\
  exists c' rest, tc_drain srt (2 * length ops + 2) c = Some (c', rest) /\ tc_finish srt c' = Some (c', None) /\
    Forall (fun x => col_made x /\ col_rows x <> []) (given ++ rest) /\ same_weights (A:=K*V*T) (flat_map col_rows (given ++ rest)) (flat_map rec_rows (tc_pushed ops)).
Proof.
  intros K V T R OK OV TT DR srt [Hp Hs] target Ht ops HM. set (M := list_max (map (fun x => length (rec_rows x)) (tc_pushed ops))).
  assert (HM2 : Forall (fun x => rec_made x /\ length (rec_rows x) <= M) (tc_pushed ops)).
  { rewrite Forall_forall in *. intros x Hx. split; auto. assert (L : Forall (fun k => k <= M) (map (fun x => length (rec_rows x)) (tc_pushed ops))) by (apply list_max_le; auto). rewrite Forall_map, Forall_forall in L. exact (L x Hx). }
  destruct (tc_run_ok srt Hp Hs target M Ht ops tc_default (tc_default_inv target M Ht 1) HM2) as (c & out & E & HI & HF & W). exists c, out. split; auto.
  destruct (tc_drain_ok srt Hp Hs target M Ht (2 * length ops + 2) c HI) as (c' & rest & E' & HF' & W' & ER & EB). { apply (tc_ready_bound srt target Ht) in E. cbn in E. destruct (tc_blobs c); lia. }
  exists c', rest. split; auto. split; [unfold tc_finish, tc_extract; rewrite EB, ER; reflexivity|]. split.
  - apply Forall_app. split; eapply Forall_impl; [|exact HF| |exact HF']; intros x (H1 & _ & H3 & _); split; auto; destruct (col_rows x); cbn in *; [lia|discriminate|lia|discriminate].
  - rewrite flat_map_app. apply same_weights_sym. eapply same_weights_trans; [|apply same_weights_app; [apply same_weights_refl|exact W']]. exact W.
Qed.
Print Assumptions c57_chunker.
(** If finishing comes last, only the last chunk may have fewer than [target] updates; a chunk has fewer than twice
    as many, unless some container has as many as it has.  Before that fewer than twice [target] updates are held back. *)
Theorem c57_chunker_sizes : forall (K V T R : Type) (OK : Ord K) (OV : Ord V) (TT : Time T) (DR : Diff R) srt, sorts (A:=K*V*T) srt -> forall target, 0 < target ->
  forall (ops : list (tc_op (K:=K) (V:=V) (T:=T) (R:=R))) largest, ~ In TFinish ops -> Forall (fun c => rec_made c /\ length (rec_rows c) <= largest) (tc_pushed ops) ->
  exists c given, tc_run srt target tc_default ops = Some (c, given) /\ list_sum (map (fun b => updates_len (fst b)) (tc_blobs c)) < 2 * target /\
  exists c' rest last, tc_drain srt (2 * length ops + 2) c = Some (c', rest ++ last) /\ length last <= 1 /\
    Forall (fun x => target <= length (col_rows x)) (given ++ rest) /\ Forall (fun x => length (col_rows x) <= Nat.max largest (2 * target - 1)) (given ++ rest ++ last).
Proof.
  intros K V T R OK OV TT DR srt [Hp Hs] target Ht ops M HO HM. destruct (tc_run_sized srt Hp Hs target M Ht ops) with (c := tc_default (K:=K) (V:=V) (T:=T) (R:=R)) as (c & out & E & HI & HF); auto.
  { intros o Ho ->. auto. } { apply tc_default_inv; auto. }
  exists c, out. split; auto. split.
  { pose proof (ti_small _ _ _ _ HI) as L. rewrite (ti_records _ _ _ _ HI) in L. pose proof (ti_blobs _ _ _ _ HI) as B. replace (list_sum _) with (length (flat_map blob_rows (tc_blobs c))); auto. clear -B. induction B as [|p ps HB _ IH]; [reflexivity|]. cbn [flat_map map list_sum fold_right]. rewrite app_length, IH, (blob_len _ HB). reflexivity. }
  destruct (tc_drain_sized srt Hp Hs target M Ht (2 * length ops + 2) c HI) as (c' & rest & more & E' & HF1 & HL & HF2). { apply (tc_ready_bound srt target Ht) in E. cbn in E. lia. }
  exists c', rest, more. split; auto. split; auto. split.
  - apply Forall_app. split; eapply Forall_impl; [|exact HF| |exact HF1]; intros x (_ & _ & H & _); auto.
  - rewrite !Forall_app. repeat split; eapply Forall_impl; [|exact HF| |exact HF1| |exact HF2]; intros x (_ & _ & _ & H); lia.
Qed.
Print Assumptions c57_chunker_sizes.

(** ** The exchange: each of [n] workers gets the updates whose key's hash is its index modulo [n], in order, or
    no message at all if there are none *)
Theorem c57_distribute : forall (K V T R : Type) (OK : Ord K) (OV : Ord V) (TT : Time T) (DR : Diff R) (hash : K -> nat) n (c : RecordedUpdates K V T R), 0 < n -> rec_made c ->
  exists outs, distribute hash n c = Some outs /\ length outs = n /\ forall i, i < n ->
    let expected := filter (fun '(k, _, _, _) => hash k mod n =? i) (rec_rows c) in
    (expected = [] /\ nth_error outs i = Some None) \/
    (expected <> [] /\ exists m, nth_error outs i = Some (Some m) /\ rec_made m /\ rec_rows m = expected /\ ru_consolidated m = ru_consolidated c).
Proof.
  intros K V T R OK OV TT DR hash n c Hn HM. destruct (distribute_ok hash n c Hn HM) as (outs & E & L & H & _). exists outs. split; auto. split; auto. intros i Hi expected. specialize (H i Hi).
  assert (EE : expected = share hash n i (rec_rows c)) by (unfold expected, share; apply filter_ext; intros [[[k v] t] d]; reflexivity). rewrite EE. destruct (nth_error outs i) as [[m|]|]; [right|left; auto|contradiction]. destruct H as (H1 & H2 & H3 & H4 & _). split; auto. exists m. auto.
Qed.
Print Assumptions c57_distribute.
(** The records claimed are conserved if there is an update, and there are as many records as updates.  Each
    message then claims a record. *)
Theorem c57_records : forall (K V T R : Type) (OK : Ord K) (OV : Ord V) (TT : Time T) (DR : Diff R) (hash : K -> nat) n (c : RecordedUpdates K V T R), 0 < n -> rec_made c -> counted c -> rec_rows c <> [] ->
  exists outs, distribute hash n c = Some outs /\ records_of outs = ru_records c /\ forall m, In (Some m) outs -> 0 < ru_records m.
Proof.
  intros K V T R OK OV TT DR hash n c Hn HM HC HR. destruct (distribute_ok hash n c Hn HM) as (outs & E & L & H & HS). exists outs. split; auto. pose proof (busy_length hash n (rec_rows c)) as LB. unfold counted in HC. split.
  - rewrite HS. pose proof (busy_nonempty hash n (rec_rows c) Hn HR) as HB. destruct (busy hash n (rec_rows c)); [congruence|]. cbn [length] in *. lia.
  - intros m Hm. apply In_nth_error in Hm as [i Hi]. assert (Li : i < n) by (rewrite <- L; apply nth_error_Some; congruence). specialize (H i Li). rewrite Hi in H. apply H. lia.
Qed.
Print Assumptions c57_records.
(** In general: the records of the messages, if [busy] many workers get one. *)
Theorem c57_records_in_general : forall (K V T R : Type) (OK : Ord K) (OV : Ord V) (TT : Time T) (DR : Diff R) (hash : K -> nat) n (c : RecordedUpdates K V T R), 0 < n -> rec_made c ->
  exists outs, distribute hash n c = Some outs /\ let busy := length (filter (fun m => match m with Some _ => true | None => false end) outs) in
    records_of outs = if busy =? 0 then 0 else Nat.max (ru_records c) (busy - 1).
Proof.
  intros K V T R OK OV TT DR hash n c Hn HM. destruct (distribute_ok hash n c Hn HM) as (outs & E & L & H & HS). exists outs. split; auto. cbv zeta. rewrite HS.
  assert (EB : length (filter (fun m => match m with Some _ => true | None => false end) outs) = length (busy hash n (rec_rows c))).
  { unfold busy. assert (G : forall s, (forall i, i < length outs -> match nth_error outs i with Some (Some _) => share hash n (s + i) (rec_rows c) <> [] | Some None => share hash n (s + i) (rec_rows c) = [] | None => False end) ->
      length (filter (fun m : option (RecordedUpdates K V T R) => match m with Some _ => true | None => false end) outs) = length (filter (fun i => match share hash n i (rec_rows c) with [] => false | _ => true end) (seq s (length outs)))).
    { clear. induction outs as [|o outs IH]; intros s H; [reflexivity|]. cbn [filter length seq]. pose proof (H 0) as H0. cbn in H0. rewrite Nat.add_0_r in H0. specialize (H0 (Nat.lt_0_succ _)).
      assert (IH' := IH (S s)). destruct o; [destruct (share hash n s (rec_rows c)); [congruence|]|rewrite H0]; cbn [length]; [f_equal|]; apply IH'; intros i Hi; specialize (H (S i)); cbn in H; rewrite <- plus_n_Sm in H; apply H; lia. }
    rewrite (G 0); [rewrite L; reflexivity|]. intros i Hi. rewrite L in Hi. specialize (H i Hi). cbn [plus]. destruct (nth_error outs i) as [[m|]|]; tauto. }
  rewrite EB. destruct (length (busy hash n (rec_rows c))); [reflexivity|]. cbn [Nat.eqb]. lia.
Qed.
Print Assumptions c57_records_in_general.

(** ** Operators that give their output to a builder *)
Theorem c57_join_function : forall (K V T R : Type) (OK : Ord K) (OV : Ord V) (TT : Time T) (DR : Diff R) (MR : Multiply R R R) srt, sorts (A:=K*V*T) srt ->
  forall target (logic : K -> V -> T -> R -> list (K * V * T * R)) (c : RecordedUpdates K V T R), rec_made c -> exists outs, join_function srt target logic c = Some outs /\
    Forall (fun c => rec_made c /\ ru_consolidated c = true /\ counted c) outs /\
    same_weights (A:=K*V*T) (flat_map rec_rows outs) (flat_map (fun '(k1, v1, t1, d1) => map (fun '(k2, v2, t2, d2) => (k2, v2, join t2 t1, dmul d2 d1)) (logic k1 v1 t1 d1)) (rec_rows c)).
Proof.
  intros K V T R OK OV TT DR MR srt [Hp Hs] target logic c HM. unfold join_function. rewrite (rec_read c HM).
  match goal with |- context [vb_session srt target ?items] => destruct (session_ok srt Hp Hs target items) as (out & segs & E & HF & HE) end. rewrite E. exists out. split; auto. split.
  - clear -HF. induction HF as [|seg c segs l HB HF IH]; constructor; auto. destruct HB as (H1 & H2 & _ & _ & _ & H6 & _). auto.
  - rewrite <- HE. clear -HF. induction HF as [|seg c segs l HB HF IH]; [apply same_weights_refl|]. cbn [flat_map concat]. apply same_weights_app; auto. apply HB.
Qed.
Print Assumptions c57_join_function.
Theorem c57_leave_dynamic : forall (K V T1 T2 R : Type) (OK : Ord K) (OV : Ord V) (TT1 : Time T1) (TT2 : Time T2) (DR : Diff R) srt, sorts (A:=K*V*T2) srt ->
  forall target (truncate : T1 -> T2) (c : RecordedUpdates K V T1 R), rec_made c -> exists outs, col_leave_dynamic srt target truncate c = Some outs /\
    Forall (fun c => rec_made c /\ ru_consolidated c = true /\ counted c) outs /\ same_weights (A:=K*V*T2) (flat_map rec_rows outs) (map (fun '(k, v, t, d) => (k, v, truncate t, d)) (rec_rows c)).
Proof.
  intros K V T1 T2 R OK OV TT1 TT2 DR srt [Hp Hs] target f c HM. unfold col_leave_dynamic. rewrite (rec_read c HM).
  match goal with |- context [vb_session srt target ?items] => destruct (session_ok srt Hp Hs target items) as (out & segs & E & HF & HE) end. rewrite E. exists out. split; auto. split.
  - clear -HF. induction HF as [|seg c segs l HB HF IH]; constructor; auto. destruct HB as (H1 & H2 & _ & _ & _ & H6 & _). auto.
  - rewrite <- HE. clear -HF. induction HF as [|seg c segs l HB HF IH]; [apply same_weights_refl|]. cbn [flat_map concat]. apply same_weights_app; auto. apply HB.
Qed.
Print Assumptions c57_leave_dynamic.

(** ** From an operator's session to another worker's chunks: worker [i] gets, in whatever order the messages come
    and its chunks are taken, the updates that are its own *)
Theorem c57_to_chunks : forall (K V T R : Type) (OK : Ord K) (OV : Ord V) (TT : Time T) (DR : Diff R) srt, sorts (A:=K*V*T) srt -> forall target, 0 < target ->
  forall (hash : K -> nat) n i, i < n -> forall items : list (K * V * T * R), exists containers messages, vb_session srt target items = Some containers /\
    Forall2 (fun c m => exists outs, distribute hash n c = Some outs /\ nth_error outs i = Some m) containers messages /\
    forall ops, Permutation (map Some (tc_pushed ops)) (filter (fun m => match m with Some _ => true | None => false end) messages) ->
    exists c given c' rest, tc_run srt target tc_default ops = Some (c, given) /\ tc_drain srt (2 * length ops + 2) c = Some (c', rest) /\ Forall (fun x => col_made x /\ col_rows x <> []) (given ++ rest) /\
      same_weights (A:=K*V*T) (flat_map col_rows (given ++ rest)) (filter (fun '(k, _, _, _) => hash k mod n =? i) items).
Proof.
  intros K V T R OK OV TT DR srt HS target Ht hash n i Hi items. pose proof HS as [Hp Hs]. destruct (session_ok srt Hp Hs target items) as (containers & segs & E & HF & HE).
  assert (G : exists messages, Forall2 (fun c m => exists outs, distribute hash n c = Some outs /\ nth_error outs i = Some m) containers messages /\
    Forall (fun m => match m with Some m => rec_made m | None => True end) messages /\ same_weights (A:=K*V*T) (flat_map (fun m => match m with Some m => rec_rows m | None => [] end) messages) (share hash n i items)).
  { rewrite <- HE. clear E HE. induction HF as [|seg c segs l HB HF IH]; [exists []; split; [constructor|]; split; [constructor|apply same_weights_refl]|]. destruct IH as (ms & H1 & H2 & H3).
    destruct HB as (M & _ & _ & W & _). destruct (distribute_ok hash n c) as (outs & E & L & H & _); auto; [lia|]. specialize (H i Hi). destruct (nth_error outs i) as [m|] eqn:Em; [|contradiction]. exists (m :: ms).
    assert (W2 : same_weights (A:=K*V*T) (share hash n i (rec_rows c)) (share hash n i seg)) by (exact (filter_same_weights (A:=K*V*T) (fun x => hash (fst (fst x)) mod n =? i) _ _ W)).
    split; [constructor; eauto|]. cbn [concat]. unfold share in *. rewrite filter_app. cbn [flat_map]. destruct m as [m|].
    - destruct H as (_ & Hm & Er & _). split; [constructor; auto|]. apply same_weights_app; auto. rewrite Er. auto.
    - split; [constructor; auto|]. apply same_weights_app; auto. rewrite <- H. auto. }
  destruct G as (messages & H1 & H2 & H3). exists containers, messages. split; auto. split; auto. intros ops HP.
  assert (HM : Forall rec_made (tc_pushed ops)).
  { apply Forall_forall. intros x Hx. rewrite Forall_forall in H2. assert (Hin : In (Some x) messages) by (eapply Permutation_in in HP; [apply filter_In in HP; exact (proj1 HP)|apply in_map; auto]). exact (H2 _ Hin). }
  destruct (c57_chunker K V T R OK OV TT DR srt HS target Ht ops HM) as (c & given & E1 & c' & rest & E2 & _ & HF' & W). exists c, given, c', rest. split; auto. split; auto. split; auto.
  eapply same_weights_trans; [exact W|]. assert (EF : filter (fun '(k, _, _, _) => hash k mod n =? i) items = share hash n i items) by (unfold share; apply filter_ext; intros [[[k v] t] d]; reflexivity). rewrite EF. eapply same_weights_trans; [|exact H3].
  replace (flat_map rec_rows (tc_pushed ops)) with (flat_map (fun m => match m with Some m => rec_rows m | None => [] end) (map Some (tc_pushed ops))) by (generalize (tc_pushed ops); intros l; induction l; cbn; congruence).
  apply weight_perm. eapply Permutation_trans; [apply Permutation_flat_map; exact HP|]. clear. induction messages as [|[m|] l IH]; cbn; auto. apply Permutation_app_head. auto.
Qed.
Print Assumptions c57_to_chunks.

(** ** Findings: the exchange does not conserve records in general, which the system's progress tracking counts
    A container whose updates all cancel, such as the builder makes, is dropped with its records. *)
Theorem c57_records_lost_refuted : exists (c : RecordedUpdates nat nat nat Z) outs, vb_session (isort (A:=nat*nat*nat)) 4 [(0, 0, 0, 1%Z); (0, 0, 0, (-1)%Z)] = Some [c] /\ rec_made c /\ counted c /\ ru_records c = 2 /\
  distribute (fun k => k) 2 c = Some outs /\ records_of outs = 0.
Proof.
  eexists _, _. split; [vm_compute; reflexivity|]. split; [left; exists []; split; [split; constructor|reflexivity]|]. split; [vm_compute; auto|]. split; [reflexivity|]. split; vm_compute; reflexivity.
Qed.
Print Assumptions c57_records_lost_refuted.
(** What the exchange gives may have more updates than records, so that an exchange after another one, for another
    hash, sends more records than it got. *)
Theorem c57_records_made_up_refuted : exists (c d : RecordedUpdates nat nat nat Z) outs, vb_session (isort (A:=nat*nat*nat)) 8 [(1, 0, 0, 1%Z); (0, 0, 0, 1%Z); (2, 0, 0, 1%Z); (4, 0, 0, 1%Z); (3, 0, 0, 1%Z); (5, 0, 0, 1%Z)] = Some [c] /\
  (exists outs, distribute (fun k => k) 2 c = Some outs /\ nth_error outs 1 = Some (Some d)) /\ ru_records d = 1 /\ distribute (fun k => Nat.div2 k) 3 d = Some outs /\ records_of outs = 2.
Proof.
  eexists _, _, _. split; [vm_compute; reflexivity|]. split; [eexists; split; vm_compute; reflexivity|]. split; [reflexivity|]. split; vm_compute; reflexivity.
Qed.
Print Assumptions c57_records_made_up_refuted.
(** Entering a scope with a change of times that is not strictly monotone would leave a false claim behind. *)
Theorem c57_enter_refuted : exists (c : RecordedUpdates nat nat nat Z), rec_made c /\ ru_consolidated (ru_enter (fun _ : nat => 0) c) = true /\ ~ consolidated (A:=nat*nat*nat) (rec_rows (ru_enter (fun _ : nat => 0) c)).
Proof.
  destruct (form_fixed (K:=nat) (V:=nat) (T:=nat) (R:=Z) [(0, 0, 0, 1%Z); (0, 0, 1, 1%Z)]) as (u & F & _); [split; [repeat constructor|repeat constructor]|].
  exists {| ru_updates := u; ru_records := 2; ru_consolidated := true |}. vm_compute in F. injection F as <-. split; [left; exists [(0, 0, 0, 1%Z); (0, 0, 1, 1%Z)]; split; [split; repeat constructor|vm_compute; reflexivity]|]. split; [reflexivity|]. intros [H _]. vm_compute in H. inversion H; subst. discriminate.
Qed.
Print Assumptions c57_enter_refuted.

(** ** Examples *)
Definition ex_items : list (nat * nat * nat * Z) := [(1, 5, 0, 1%Z); (0, 3, 2, 2%Z); (1, 5, 0, (-1)%Z); (2, 2, 1, 1%Z); (0, 3, 2, 1%Z); (3, 0, 0, 4%Z); (1, 1, 1, 1%Z)].
Example c57_example_session : exists cs, vb_session (isort (A:=nat*nat*nat)) 2 ex_items = Some cs /\
  map rec_rows cs = [[(0, 3, 2, 2%Z)]; [(0, 3, 2, 1%Z); (2, 2, 1, 1%Z); (3, 0, 0, 4%Z)]; [(1, 1, 1, 1%Z)]] /\ map ru_records cs = [3; 3; 1].
Proof. eexists. split; [vm_compute; reflexivity|]. split; vm_compute; reflexivity. Qed.
Example c57_example_distribute : exists c outs, vb_session (isort (A:=nat*nat*nat)) 8 ex_items = Some [c] /\ rec_made c /\ counted c /\ distribute (fun k => k) 3 c = Some outs /\
  map (option_map rec_rows) outs = [Some [(0, 3, 2, 3%Z); (3, 0, 0, 4%Z)]; Some [(1, 1, 1, 1%Z)]; Some [(2, 2, 1, 1%Z)]] /\ map (option_map ru_records) outs = [Some 5; Some 1; Some 1].
Proof.
  destruct (c57_builder nat nat nat Z Ord_nat Ord_nat Time_nat Diff_Z (isort (A:=nat*nat*nat)) (conj (@isort_perm _ _ _) (@isort_sorted _ _ _)) 8 (map VPush ex_items)) as (b & given & E & b' & rest & segs & E' & _ & _ & HF).
  vm_compute in E. injection E as <- <-. vm_compute in E'. injection E' as <- <-. cbn [app] in HF. inversion HF as [|seg c segs' l H HF' Eq1 Eq2]. subst. destruct H as (H1 & _ & _ & _ & H5 & _).
  eexists _, _. split; [vm_compute; reflexivity|]. split; [exact H1|]. split; [exact H5|]. split; [vm_compute; reflexivity|]. split; vm_compute; reflexivity.
Qed.
Example c57_example_chunker : exists cs c given rest c', vb_session (isort (A:=nat*nat*nat)) 2 ex_items = Some cs /\ tc_run (isort (A:=nat*nat*nat)) 2 tc_default (map TPush cs ++ [TExtract]) = Some (c, given) /\
  tc_drain (isort (A:=nat*nat*nat)) 10 c = Some (c', rest) /\
  map col_rows (given ++ rest) = [[(0, 3, 2, 1%Z); (2, 2, 1, 1%Z); (3, 0, 0, 4%Z)]; [(0, 3, 2, 2%Z); (1, 1, 1, 1%Z)]].
Proof. eexists _, _, _, _, _. split; [vm_compute; reflexivity|]. split; [vm_compute; reflexivity|]. split; [vm_compute; reflexivity|]. vm_compute; reflexivity. Qed.
(** Entering an iterative scope appends a round zero, which keeps the order of times. *)
Example c57_example_enter : forall a b : nat, lt a b -> lt (A:=nat*nat) (a, 0) (b, 0).
Proof. intros a b H. unfold lt in *. cbn in *. unfold pair_cmp. cbn. rewrite H. reflexivity. Qed.
