(** C30, C31: operators that work update by update, and moving collections between scopes. *)
From Verif Require Import Base.Collections Spec.LinearSpec Spec.PointStampSpec Model.PointStampM Model.AltNeuM Proofs.LinearP Proofs.PointStampP Proofs.DeferredP.

(** ** C30
    Throughout, [ds] is any list without repetitions of all the records that occur in the input. *)
Section C30.
Context {D E T R R2 R3 : Type} {OD : Ord D} {OE : Ord E} {TT : Time T} {DR : Diff R} {DR2 : Diff R2} {DR3 : Diff R3}.

(** map: each record [e] counts as much as the records mapped to it together *)
Theorem c30_map : forall (logic : D -> E) (s : stream T (D * T * R)) ds, covers ds (updates s) ->
  (forall e t, acc (updates (c_map logic s)) e t = dsum (map (fun d => acc (updates s) d t) (filter (fun d => eqb (logic d) e) ds))) /\
  (well_timed s -> well_timed (c_map logic s)).
Proof.
  intros logic s ds HC. set (h := fun u : D * T * R => [(logic (fst (fst u)), snd (fst u), snd u)]).
  assert (Eh : c_map logic s = each (flat_map h) s) by (unfold c_map, each; apply map_ext; intros m; rewrite map_flat; auto).
  rewrite Eh. split.
  - intros e t. rewrite each_flat. rewrite (linear h (fun d r => if eqb (logic d) e then r else dzero) e t (updates s) ds HC).
    + clear. induction ds as [|d ds IH]; auto. cbn [map filter]. rewrite dsum_cons, IH. destruct (eqb (logic d) e); auto. apply dplus_0_l.
    + intros a. destruct (eqb _ _); auto.
    + intros a r1 r2. destruct (eqb _ _); auto. rewrite dplus_0_l. auto.
    + intros u. unfold h. rewrite acc_cons', acc_nil, dplus_0_r. simpl. destruct (eqb _ _), (tle _ _); auto.
  - apply each_timed. intros u v [<-|[]]. apply tle_refl.
Qed.

(** flat_map: each record [e] counts as much as each record that produces it, as often as it does *)
Theorem c30_flat_map : forall (logic : D -> list E) (s : stream T (D * T * R)) ds, covers ds (updates s) ->
  (forall e t, acc (updates (c_flat_map logic s)) e t =
     dsum (map (fun d => dsum (map (fun _ => acc (updates s) d t) (filter (fun x => eqb x e) (logic d)))) ds)) /\
  (well_timed s -> well_timed (c_flat_map logic s)).
Proof.
  intros logic s ds HC. split.
  - intros e t. unfold c_flat_map. rewrite each_flat. apply (linear _ (fun d r => dsum (map (fun _ => r) (filter (fun x => eqb x e) (logic d)))) e t (updates s) ds HC).
    + intros a. apply dsum_map_zero. auto.
    + intros a r1 r2. rewrite dsum_map_plus. auto.
    + intros [[d t'] r]. cbn [fst snd]. induction (logic d) as [|x l IH]; cbn [map filter].
      * rewrite acc_nil. destruct (tle t' t); auto.
      * rewrite acc_cons', IH. simpl. destruct (eqb x e); simpl; destruct (tle t' t); rewrite ?dplus_0_l; auto.
  - apply each_timed. intros u v Hv. apply in_map_iff in Hv as (x & <- & _). apply tle_refl.
Qed.

(** filter: a record that is kept counts as before, others not at all *)
Theorem c30_filter : forall (logic : D -> bool) (s : stream T (D * T * R)),
  (forall d t, acc (updates (c_filter logic s)) d t = if logic d then acc (updates s) d t else dzero) /\
  (well_timed s -> well_timed (c_filter logic s)).
Proof.
  intros logic s. split.
  - intros d t. unfold c_filter. rewrite (updates_each (filter (fun u => logic (fst (fst u))))) by (auto; apply filter_app).
    induction (updates s) as [|[[d' t'] r] c IH]; simpl; [destruct (logic d); auto|].
    rewrite acc_cons'. cbn [fst snd]. destruct (eqb_spec d' d) as [->|Hne].
    + destruct (logic d); auto. rewrite acc_cons', IH. simpl. rewrite eqb_refl. auto.
    + simpl. rewrite dplus_0_l. destruct (logic d'); auto. rewrite acc_cons', IH. simpl. destruct (eqb_spec d' d); [contradiction|]. cbn [andb]. rewrite dplus_0_l. auto.
  - intros H. unfold well_timed, c_filter, each in *. rewrite Forall_map. eapply Forall_impl; [|exact H]. intros m Hm. simpl.
    rewrite Forall_forall in *. intros u Hu. apply filter_In in Hu as [Hu _]. auto.
Qed.

(** explode: records are replaced by weighted records *)
Theorem c30_explode : forall (MU : Multiply R2 R R3) (logic : D -> list (E * R2)) (s : stream T (D * T * R)) ds, covers ds (updates s) ->
  (forall e t, acc (updates (c_explode (MU:=MU) logic s)) e t = dsum (map (fun d => dmul (weight (logic d) e) (acc (updates s) d t)) ds)) /\
  (well_timed s -> well_timed (c_explode (MU:=MU) logic s)).
Proof.
  intros MU logic s ds HC. split.
  - intros e t. unfold c_explode. rewrite each_flat. apply (linear _ (fun d r => dmul (weight (logic d) e) r) e t (updates s) ds HC).
    + intros a. apply dmul_0_r.
    + intros a r1 r2. apply dmul_plus_r.
    + intros [[d t'] r]. cbn [fst snd]. induction (logic d) as [|[x r2] l IH]; cbn [map].
      * rewrite acc_nil, weight_nil, dmul_0_l. destruct (tle t' t); auto.
      * rewrite acc_cons', IH, weight_cons', dmul_plus_l. simpl. destruct (eqb x e); simpl; destruct (tle t' t); rewrite ?dmul_0_l, ?dplus_0_l; auto.
  - apply each_timed. intros u v Hv. apply in_map_iff in Hv as (x & <- & _). apply tle_refl.
Qed.

(** join_function: records are replaced by collections, present from the later of both times on *)
Theorem c30_join_function : forall (MU : Multiply R2 R R3) (logic : D -> list (E * T * R2)) (s : stream T (D * T * R)) ds, covers ds (updates s) ->
  (forall e t, acc (updates (c_join_function (MU:=MU) logic s)) e t = dsum (map (fun d => dmul (acc (logic d) e t) (acc (updates s) d t)) ds)) /\
  (well_timed s -> well_timed (c_join_function (MU:=MU) logic s)).
Proof.
  intros MU logic s ds HC. split.
  - intros e t. unfold c_join_function. rewrite each_flat. apply (linear _ (fun d r => dmul (acc (logic d) e t) r) e t (updates s) ds HC).
    + intros a. apply dmul_0_r.
    + intros a r1 r2. apply dmul_plus_r.
    + intros [[d t'] r]. cbn [fst snd]. induction (logic d) as [|[[x t2] r2] l IH]; cbn [map].
      * rewrite !acc_nil, dmul_0_l. destruct (tle t' t); auto.
      * rewrite !acc_cons', IH, dmul_plus_l. simpl. rewrite join_tle_b. destruct (eqb x e); simpl; destruct (tle t' t), (tle t2 t); simpl; rewrite ?dmul_0_l, ?dplus_0_l; auto.
  - apply each_timed. intros u v Hv. apply in_map_iff in Hv as (x & <- & _). apply join_ub_l.
Qed.

(** negate, and concatenation in any interleaving *)
Theorem c30_negate : forall (AR : Abelian R) (s : stream T (D * T * R)),
  (forall d t, acc (updates (c_negate s)) d t = dneg (acc (updates s) d t)) /\ (well_timed s -> well_timed (c_negate s)).
Proof.
  intros AR s. split.
  - intros d t. unfold c_negate. rewrite (updates_each (map (fun u : D * T * R => (fst u, dneg (snd u))))) by (auto; apply map_app).
    induction (updates s) as [|[[d' t'] r] c IH]; cbn [map]; [rewrite !acc_nil, dneg_zero; auto|].
    rewrite !acc_cons', IH, dneg_plus. cbn [fst snd]. destruct (_ && _); rewrite ?dneg_zero; auto.
  - intros H. unfold well_timed, c_negate, each in *. rewrite Forall_map. eapply Forall_impl; [|exact H]. intros m Hm. simpl.
    rewrite Forall_map. exact Hm.
Qed.
Theorem c30_concat : forall (s1 s2 s : stream T (D * T * R)), c_concat s1 s2 s ->
  (forall d t, acc (updates s) d t = dplus (acc (updates s1) d t) (acc (updates s2) d t)) /\ (well_timed s1 -> well_timed s2 -> well_timed s).
Proof. intros s1 s2 s H. split; [intros; apply concat_acc; auto|apply concat_timed; auto]. Qed.
Theorem c30_concatenate : forall (ss : list (stream T (D * T * R))) s, c_concatenate ss s ->
  (forall d t, acc (updates s) d t = dsum (map (fun s => acc (updates s) d t) ss)) /\ (Forall well_timed ss -> well_timed s).
Proof. intros ss s H. split; [intros; apply concatenate_acc; auto|apply concatenate_timed; auto]. Qed.

(** consolidate_stream: nothing changes but the representation, in containers that are sorted and free of
    duplicates and of zeros *)
Theorem c30_consolidate_stream : forall preferred alloc (s : stream T (D * T * R)), 1 <= preferred ->
  exists s', c_consolidate_stream preferred alloc s = Some s' /\ same_weights (A:=D*T) (updates s') (updates s) /\
    Forall (fun m => snd m <> [] /\ length (snd m) <= preferred /\ consolidated (A:=D*T) (snd m)) s'.
Proof.
  intros p alloc s Hp. induction s as [|m s (s' & Es & W & G)].
  - exists []. split; [auto|]. split; [apply same_weights_refl|constructor].
  - cbn [c_consolidate_stream]. destruct (push_all_ok p alloc Hp (snd m) ccb_default (Forall_nil _)) as (b & Eb & Gb & Wb). rewrite Eb.
    destruct (finish_all_ok p alloc Hp b [] Gb (Forall_nil _)) as (b' & ready & Ef & Gr & _ & Wr). rewrite Ef, Es.
    exists (map (fun c => (fst m, c)) ready ++ s'). split; [auto|]. split.
    + unfold updates in *. rewrite flat_map_app. simpl. apply same_weights_app; auto.
      rewrite flat_map_concat_map, map_map, map_id. eapply same_weights_trans; [exact Wr|]. exact Wb.
    + apply Forall_app. split; auto. rewrite Forall_map. eapply Forall_impl; [|exact Gr]. intros c (H1 & H2 & H3). auto.
Qed.
End C30.
Print Assumptions c30_map. Print Assumptions c30_flat_map. Print Assumptions c30_filter. Print Assumptions c30_explode.
Print Assumptions c30_join_function. Print Assumptions c30_negate. Print Assumptions c30_concat. Print Assumptions c30_concatenate.
Print Assumptions c30_consolidate_stream.

(** antijoin (collection.rs:1215-1218) is [self.concat(self.semijoin(other).negate())]; semijoin is a join
    whose output is that of C21.  A record counts as much as before, less its count times the count of
    its key in the other collection. *)
Theorem c30_antijoin : forall (K V T R R2 : Type) (OK : Ord K) (OV : Ord V) (TT : Time T) (DR : Diff R) (AR : Abelian R) (DR2 : Diff R2) (MU : Multiply R R2 R)
  (s : stream T (K * V * T * R)) (other : list (K * unit * T * R2)) (semijoined out : stream T (K * V * T * R)) t,
  (forall d, acc (updates semijoined) d t = acc (join_updates (MU:=MU) semi (updates s) other) d t) ->
  c_concat s (c_negate semijoined) out ->
  forall k v, acc (updates out) (k, v) t = dplus (acc (updates s) (k, v) t) (dneg (dmul (acc (updates s) (k, v) t) (acc other (k, tt) t))).
Proof.
  intros K V T R R2 OK OV TT DR AR DR2 MU s other sj out t HS HC k v.
  rewrite (concat_acc _ _ _ HC). destruct (c30_negate AR sj) as [HN _].
  rewrite HN, HS, acc_join_semi. auto.
Qed.
Print Assumptions c30_antijoin.

(** Records 1, 2, 3 with counts; halving maps 2 and 3 to the same record. *)
Definition c30_s : stream nat (nat * nat * Z) := [(0, [(2, 0, 5%Z); (3, 1, 2%Z)]); (1, [(2, 1, (-1)%Z); (1, 3, 4%Z)])].
Example c30_meets : covers [1; 2; 3] (updates c30_s) /\ well_timed c30_s /\
  acc (updates (c_map Nat.div2 c30_s)) 1 1 = 6%Z /\ acc (updates (c_filter Nat.even c30_s)) 2 1 = 4%Z /\
  acc (updates (c_explode (fun d => [(d, 2%Z); (0, Z.of_nat d)]) c30_s)) 0 1 = 14%Z /\
  acc (updates (c_join_function (fun d => [(d, 2, 3%Z)]) c30_s)) 2 1 = 0%Z /\
  acc (updates (c_join_function (fun d => [(d, 2, 3%Z)]) c30_s)) 2 2 = 12%Z.
Proof.
  split; [split; [repeat constructor; simpl; intuition lia|]|].
  - repeat (apply Forall_cons; [simpl; auto|]); constructor.
  - split; [|vm_compute; auto]. repeat (apply Forall_cons; [repeat (apply Forall_cons; [reflexivity|]); constructor|]). constructor.
Qed.
Example c30_anti : exists out sj : stream nat (nat * nat * nat * Z),
  let s := [(0, [(1, 7, 0, 2%Z); (2, 8, 0, 3%Z)])] in let other := [(1, tt, 1, 1%Z)] in
  (forall d, acc (updates sj) d 1 = acc (join_updates semi (updates s) other) d 1) /\ c_concat s (c_negate sj) out /\
  acc (updates out) (1, 7) 0 = 2%Z /\ acc (updates out) (1, 7) 1 = 0%Z /\ acc (updates out) (2, 8) 1 = 3%Z.
Proof.
  exists [(0, [(1, 7, 0, 2%Z); (2, 8, 0, 3%Z)]); (1, [(1, 7, 1, (-2)%Z)])], [(1, [(1, 7, 1, 2%Z)])].
  split; [intros d; reflexivity|]. split; [|vm_compute; auto].
  apply cc_l. apply cc_r. apply cc_nil.
Qed.

(** ** C31 *)
Section C31.
Context {D T1 T2 R : Type} {OD : Ord D} {TT1 : Time T1} {TT2 : Time T2} {DR : Diff R}.

(** the contribution, at [t], of the updates to [d] whose times satisfy [p] *)
Definition those (p : T1 -> bool) (c : list (D * T1 * R)) (d : D) : R :=
  dsum (map snd (filter (fun u => eqb (fst (fst u)) d && p (snd (fst u))) c)).

(** enter: at an inner time one sees what the outer collection holds at the outer part of it *)
Theorem c31_enter : forall (rf : RefinesOps T1 T2) (s : stream T1 (D * T1 * R)), refines rf ->
  (forall d u, acc (updates (c_enter rf s)) d u = acc (updates s) d (to_outer rf u)) /\ (well_timed s -> well_timed (c_enter rf s)).
Proof.
  intros rf s (HG & HI & HM). split.
  - intros d u. induction s as [|m s IH]; auto. unfold updates, c_enter in *. cbn [map flat_map snd fst]. rewrite !acc_app, IH. f_equal.
    induction (snd m) as [|x c IHc]; auto. cbn [map]. rewrite !acc_cons', IHc. cbn [fst snd]. rewrite HG. auto.
  - intros H. unfold well_timed, c_enter in *. rewrite Forall_map. eapply Forall_impl; [|exact H]. intros m Hm. cbn [fst snd].
    rewrite Forall_map. eapply Forall_impl; [|exact Hm]. intros x Hx. cbn [fst snd]. rewrite HG, HI. auto.
Qed.
(** leave: at an outer time one sees the collection at any inner time with that outer part that is at or
    after all inner times occurring up to there *)
Theorem c31_leave : forall (rf : RefinesOps T1 T2) (s : stream T2 (D * T2 * R)), refines rf ->
  (forall d u, (forall x, In x (updates s) -> tle (to_outer rf (snd (fst x))) (to_outer rf u) = true -> tle (snd (fst x)) u = true) ->
     acc (updates (c_leave rf s)) d (to_outer rf u) = acc (updates s) d u) /\ (well_timed s -> well_timed (c_leave rf s)).
Proof.
  intros rf s (HG & HI & HM). split.
  - intros d u. induction s as [|m s IH]; auto. unfold updates, c_leave in *. cbn [map flat_map snd fst]. intros H.
    rewrite !acc_app, IH by (intros x Hx; apply H; apply in_or_app; auto). f_equal.
    assert (Hc : forall x, In x (snd m) -> tle (to_outer rf (snd (fst x))) (to_outer rf u) = true -> tle (snd (fst x)) u = true)
      by (intros x Hx; apply H; apply in_or_app; auto). clear H IH.
    induction (snd m) as [|x c IHc]; auto. cbn [map]. rewrite !acc_cons', IHc by (intros y Hy; apply Hc; right; auto). cbn [fst snd]. f_equal.
    specialize (Hc x (or_introl eq_refl)). pose proof (HM (snd (fst x)) u) as Hm.
    destruct (tle (to_outer rf (snd (fst x))) (to_outer rf u)) eqn:E1, (tle (snd (fst x)) u) eqn:E2; auto;
      [discriminate (Hc eq_refl)|discriminate (Hm eq_refl)].
  - intros H. unfold well_timed, c_leave in *. rewrite Forall_map. eapply Forall_impl; [|exact H]. intros m Hm. cbn [fst snd].
    rewrite Forall_map. eapply Forall_impl; [|exact Hm]. intros x Hx. cbn [fst snd]. apply HM. auto.
Qed.
Theorem c31_enter_leave : forall (rf : RefinesOps T1 T2) (s : stream T1 (D * T1 * R)), refines rf -> c_leave rf (c_enter rf s) = s.
Proof.
  intros rf s (HG & HI & HM). unfold c_leave, c_enter. rewrite map_map. cbn [fst snd]. rewrite <- (map_id s) at 2. apply map_ext. intros [t c]. cbn [fst snd].
  rewrite HI, map_map. f_equal. rewrite <- (map_id c) at 2. apply map_ext. intros [[d x] r]. cbn [fst snd]. rewrite HI. auto.
Qed.
(** enter_at: each record appears at the inner time given for it *)
Theorem c31_enter_at : forall (initial : D -> T2) (s : stream T1 (D * T1 * R)),
  (forall d t i, acc (updates (c_enter_at initial s)) d (t, i) = if tle (initial d) i then acc (updates s) d t else dzero) /\
  (well_timed s -> well_timed (c_enter_at initial s)).
Proof.
  intros initial s. split.
  - intros d t i. induction s as [|m s IH]; [destruct (tle _ _); auto|]. unfold updates, c_enter_at in *. cbn [map flat_map snd fst]. rewrite !acc_app, IH.
    assert (E : acc (map (fun u : D * T1 * R => (fst (fst u), (snd (fst u), initial (fst (fst u))), snd u)) (snd m)) d (t, i) = if tle (initial d) i then acc (snd m) d t else dzero).
    { induction (snd m) as [|x c IHc]; [destruct (tle _ _); auto|]. cbn [map]. rewrite !acc_cons', IHc. cbn [fst snd tle time_lattice].
      change (tle (snd (fst x), initial (fst (fst x))) (t, i)) with (tle (snd (fst x)) t && tle (initial (fst (fst x))) i).
      destruct (eqb_spec (fst (fst x)) d) as [->|]; cbn [andb].
      - destruct (tle (initial d) i); rewrite ?andb_true_r, ?andb_false_r, ?dplus_0_l; auto.
      - rewrite !dplus_0_l. auto. }
    rewrite E. destruct (tle (initial d) i); auto. apply dplus_0_l.
  - intros H. unfold well_timed, c_enter_at in *. rewrite Forall_map. eapply Forall_impl; [|exact H]. intros m Hm. cbn [fst snd].
    rewrite Forall_map. eapply Forall_impl; [|exact Hm]. intros x Hx. cbn [fst snd].
    change (tle (fst m) (snd (fst x)) && tle tmin (initial (fst (fst x))) = true). rewrite Hx, tmin_le. auto.
Qed.
(** results_in: at [t] one sees the updates whose time steps to at or before [t] *)
Theorem c31_results_in : forall (step : T1 -> option T1) (s : stream T1 (D * T1 * R)),
  (forall d t, acc (updates (c_results_in step s)) d t = those (fun x => match step x with Some y => tle y t | None => false end) (updates s) d) /\
  (forall d t p, (forall x, match step x with Some y => tle y t | None => false end = tle x p) -> acc (updates (c_results_in step s)) d t = acc (updates s) d p) /\
  (forall d t, (forall x, match step x with Some y => tle y t | None => false end = false) -> acc (updates (c_results_in step s)) d t = dzero) /\
  ((forall x y, step x = Some y -> tle x y = true) -> well_timed s -> well_timed (c_results_in step s)).
Proof.
  intros step s. unfold c_results_in. split; [|split; [|split]].
  - intros d t. rewrite each_flat. unfold those. induction (updates s) as [|u c IH]; auto. cbn [flat_map filter]. rewrite acc_app, IH.
    destruct (step (snd (fst u))) as [y|]; rewrite ?andb_false_r, ?acc_nil, ?dplus_0_l; auto.
    rewrite acc_cons', acc_nil, dplus_0_r. cbn [fst snd]. destruct (_ && _); auto. apply dplus_0_l.
  - intros d t p H. rewrite each_flat. exact (retime (fun _ x => step x) (updates s) d t (Some p) (fun u _ _ => H _)).
  - intros d t H. rewrite each_flat. exact (retime (fun _ x => step x) (updates s) d t None (fun u _ _ => H _)).
  - intros He. apply each_timed. intros u v Hv. destruct (step (snd (fst u))) as [y|] eqn:Es; [|destruct Hv]. destruct Hv as [<-|[]]. cbn [fst snd]. apply He. auto.
Qed.
(** delay by an extensive and monotone function *)
Theorem c31_delay : forall (func : T1 -> T1) (s : stream T1 (D * T1 * R)),
  (forall x, tle x (func x) = true) -> (forall x y, tle x y = true -> tle (func x) (func y) = true) ->
  exists s', c_delay func s = Some s' /\ (forall d t, acc (updates s') d t = those (fun x => tle (func x) t) (updates s) d) /\
    (forall d t, func t = t -> acc (updates s') d t = acc (updates s) d t) /\ (well_timed s -> well_timed s').
Proof.
  intros func s HE HM. 
  assert (X : exists s', c_delay func s = Some s' /\ updates s' = map (fun u => (fst (fst u), func (snd (fst u)), snd u)) (updates s) /\ (well_timed s -> well_timed s')).
  { induction s as [|m s (s' & Es & U & W)]; [exists []; repeat split; auto; constructor|].
    cbn [c_delay]. rewrite HE, Es. eexists. split; [reflexivity|]. split.
    - unfold updates in *. cbn [flat_map snd]. rewrite map_app, U. auto.
    - intros H. inversion H as [|? ? Hm Hs]; subst. constructor; [|apply W; exact Hs]. cbn [fst snd]. rewrite Forall_map.
      eapply Forall_impl; [|exact Hm]. intros x Hx. cbn [fst snd]. apply HM. auto. }
  destruct X as (s' & Es & U & W). exists s'. split; [auto|]. rewrite U.
  assert (A : forall d t, acc (map (fun u => (fst (fst u), func (snd (fst u)), snd u)) (updates s)) d t = those (fun x => tle (func x) t) (updates s) d).
  { intros d t. unfold those. clear. induction (updates s) as [|u c IH]; auto. cbn [map filter]. rewrite acc_cons', IH. cbn [fst snd].
    destruct (_ && _); auto. apply dplus_0_l. }
  split; [exact A|]. split; auto. intros d t Ht. rewrite A. unfold those. clear - HE HM Ht.
  induction (updates s) as [|u c IH]; auto. cbn [filter]. rewrite acc_cons'. cbn [fst snd].
  assert (Eq : tle (func (snd (fst u))) t = tle (snd (fst u)) t).
  { destruct (tle (snd (fst u)) t) eqn:E1; [rewrite <- Ht; apply HM; auto|]. destruct (tle (func (snd (fst u))) t) eqn:E2; auto.
    rewrite <- E1. symmetry. eapply tle_trans; [apply HE|exact E2]. }
  rewrite Eq, <- IH. destruct (_ && _); auto. rewrite dplus_0_l. auto.
Qed.
End C31.
Print Assumptions c31_enter. Print Assumptions c31_leave. Print Assumptions c31_enter_leave. Print Assumptions c31_enter_at.
Print Assumptions c31_results_in. Print Assumptions c31_delay.

(** the two timestamps that code in this repository enters: products, and any timestamp from [unit] *)
Theorem c31_refinements : forall (T1 T2 : Type) (TT1 : Time T1) (TT2 : Time T2),
  refines (T1:=T1) (T2:=T1*T2) product_refines /\ refines (T1:=unit) (T2:=T2) unit_refines.
Proof. intros. split; [apply product_is_refines|apply unit_is_refines]. Qed.
Print Assumptions c31_refinements.

(** A record added at outer time 1 and withdrawn at 3, entered; a loop's collection with iterations. *)
Definition c31_s : stream nat (nat * nat * Z) := [(1, [(7, 1, 1%Z)]); (2, [(7, 3, (-1)%Z)])].
Definition c31_i : stream (nat * nat) (nat * (nat * nat) * Z) := [((0, 0), [(7, (0, 0), 1%Z); (7, (0, 2), (-1)%Z); (8, (1, 1), 2%Z)])].
Example c31_run :
  acc (updates (c_enter product_refines c31_s)) 7 (2, 5) = 1%Z /\ acc (updates (c_enter product_refines c31_s)) 7 (0, 5) = 0%Z /\
  acc (updates (c_leave product_refines c31_i)) 7 0 = 0%Z /\ acc (updates (c_leave product_refines c31_i)) 8 1 = 2%Z /\
  (let step x := Some (fst x, S (snd x)) in acc (updates (c_results_in step c31_i)) 7 (0, 0) = 0%Z /\ acc (updates (c_results_in step c31_i)) 7 (0, 1) = 1%Z /\
     acc (updates (c_results_in step c31_i)) 7 (0, 3) = 0%Z) /\
  (forall s', c_delay (fun t => 2 * ((t + 1) / 2)) c31_s = Some s' -> acc (updates s') 7 1 = 0%Z /\ acc (updates s') 7 2 = 1%Z /\ acc (updates s') 7 3 = 1%Z) /\
  acc (updates (c_enter_at (fun d => d) c31_s)) 7 (2, 6) = 0%Z /\ acc (updates (c_enter_at (fun d => d) c31_s)) 7 (2, 7) = 1%Z.
Proof.
  repeat (split; [reflexivity|]). split; [repeat (split; try reflexivity)|]. split; [|split; reflexivity].
  intros s' H. vm_compute in H. inversion H; subst s'. vm_compute. auto.
Qed.
