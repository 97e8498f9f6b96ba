(** C47: looking up prefixes in an arrangement, and extending them with the values several relations agree on. *)
From Verif Require Import Base.Arrays Base.Collections Model.OrdNeuM Proofs.SpineP Proofs.ReadableInstP Proofs.ExtendP Props.SpineProps Props.JoinProps.

Section AnyBatches.
Context {B M C K V P T R R2 D R3 : Type} {OK : Ord K} {OV : Ord V} {TT : Time T} {DR : Diff R} {D2 : Diff R2} {D3 : Diff R3}
  (ops : BatchOps B M T) (contents : B -> list (K * V * T * R2)) (laws : BatchLaws (D:=K*V) ops contents)
  (cops : CursorOps B C K V T R2) (new : C) (HR : readable ops contents laws cops new)
  (key_selector : P -> K) (output_func : P -> R -> V -> R2 -> D * R3) (HQ : quiet output_func)
  (handle : list T * list T).
Notation world := (lworld B M P T R D R3).
Notation reaches := (lreaches ops contents laws cops new key_selector output_func handle).
Notation activate := (l_activate ops cops new key_selector output_func).
Notation lookups := (lookups key_selector output_func).

(** Whatever the schedule: what was sent, and the answers to the prefixes kept back, are the answers to all prefixes delivered, each to what its key has at its time, in all the
    updates there have been, however the trace was merged and compacted. *)
Theorem c47_lookup (w : world) : reaches w -> Permutation (l_produced w ++ lookups (l_input contents w) (l_owed w)) (lookups (l_input contents w) (lw_asked w)).
Proof.
  intros H. destruct (lreaches_inv ops contents laws cops new HR key_selector output_func HQ handle w H) as (A & HI).
  rewrite <- (lookups_nz _ _ _ (lw_asked w) HQ), <- (lookups_nz _ _ _ (l_owed w) HQ).
  eapply perm_trans; [|apply lookups_perm, Permutation_sym, (li_asked _ _ _ _ _ _ _ HI)]. rewrite lookups_app. apply Permutation_app_tail. apply (li_produced _ _ _ _ _ _ _ HI).
Qed.
(** So when no prefix is kept back, each has been answered once. *)
Theorem c47_lookup_complete (w : world) : reaches w -> l_owed w = [] -> Permutation (l_produced w) (lookups (l_input contents w) (lw_asked w)).
Proof. intros H E. pose proof (c47_lookup w H) as G. rewrite E in G. cbn [LookupSpec.lookups flat_map] in G. rewrite app_nil_r in G. exact G. Qed.

(** An activation never panics, and after it a prefix is kept back only when the arranged input may still change at its time. *)
Theorem c47_lookup_progress (w : world) msgs1 msgs2 F' F2 s' : reaches w -> delivers contents (lw_in w) msgs2 F2 s' ->
  Forall (fun m => beyond (lw_front w) (fst m) /\ lk_timed m) msgs1 -> (forall t, beyond F' t -> beyond (lw_front w) t) ->
  exists l' outs, activate (sd_spine (lw_in w)) msgs1 F' F2 (lw_op w) = Some (l', outs) /\
    forall cap ps pre t r, In (cap, ps) (l_stash l') -> In (pre, t, r) ps -> beyond F2 t.
Proof.
  intros H HD Hm HF. destruct (lreaches_inv ops contents laws cops new HR key_selector output_func HQ handle w H) as (A & HI).
  destruct (lactivate_ok ops contents laws cops new HR key_selector output_func HQ w A s' msgs1 msgs2 F' F2 HI HD Hm HF) as (l' & outs & A' & E & _ & _ & _ & Hw).
  exists l', outs. split; [exact E|]. intros cap ps pre t r H1 H2. rewrite Forall_forall in Hw. apply Hw in H1. cbn [snd] in H1. rewrite Forall_forall in H1. apply (H1 _ H2).
Qed.
(** The operator sends, and keeps, only with capabilities that its input or what it kept entitle it to; and what it sends is at or after the time it is sent at. *)
Theorem c47_lookup_capabilities (w : world) msgs1 msgs2 F' F2 s' l' outs : reaches w -> delivers contents (lw_in w) msgs2 F2 s' ->
  Forall (fun m => beyond (lw_front w) (fst m) /\ lk_timed m) msgs1 -> (forall t, beyond F' t -> beyond (lw_front w) t) ->
  activate (sd_spine (lw_in w)) msgs1 F' F2 (lw_op w) = Some (l', outs) ->
  (forall cap us, In (cap, us) outs -> beyond (lw_front w ++ map fst (l_stash (lw_op w))) cap /\ forall d t r, In (d, t, r) us -> tle cap t = true) /\
  (forall cap ps, In (cap, ps) (l_stash l') -> beyond (lw_front w ++ map fst (l_stash (lw_op w))) cap).
Proof.
  intros H HD Hm HF E0. destruct (lreaches_inv ops contents laws cops new HR key_selector output_func HQ handle w H) as (A & HI).
  destruct (lactivate_ok ops contents laws cops new HR key_selector output_func HQ w A s' msgs1 msgs2 F' F2 HI HD Hm HF) as (l1 & o1 & A' & E & HI' & Ho & Hs & _).
  rewrite E0 in E. injection E as <- <-. pose proof (li_out _ _ _ _ _ _ _ HI') as Hu. cbn [lw_out] in Hu. apply Forall_app in Hu as [_ Hu]. rewrite Forall_forall in Ho, Hs, Hu. split.
  - intros cap us Hi. split; [exact (Ho _ Hi)|]. intros d t r Hx. specialize (Hu _ Hi). cbn [fst snd] in Hu. rewrite Forall_forall in Hu. exact (Hu _ Hx).
  - intros cap ps Hi. exact (Hs _ Hi).
Qed.
End AnyBatches.
Print Assumptions c47_lookup.
Print Assumptions c47_lookup_complete.
Print Assumptions c47_lookup_progress.
Print Assumptions c47_lookup_capabilities.

(** What a key has at a time: each value whose updates up to then do not cancel, once. *)
Theorem c47_values {K V T R} {OK : Ord K} {OV : Ord V} {TT : Time T} {DR : Diff R} (us : list (K * V * T * R)) k t :
  NoDup (values_at us k t) /\ forall v, In v (values_at us k t) <-> acc (D:=K*V) us (k, v) t <> dzero.
Proof. split; [apply values_at_nodup|intros v; apply values_at_in]. Qed.
Print Assumptions c47_values.

(** The operators meet the assumption on [output_func]. *)
Theorem c47_quiet {P V R} {DR : Diff R} {MU : Multiply R R R} (index : nat) : quiet (count_output (P:=P) (R:=R) index) /\ quiet (propose_output (P:=P) (V:=V) (R:=R)) /\
  quiet (propose_distinct_output (P:=P) (V:=V) (R:=R)) /\ quiet (validate_output (P:=P) (V:=V) (R:=R)).
Proof.
  split; [|split; [|split]]; intros pre v c; cbn; auto; [|apply dmul_0_l]. destruct pre as [[p n] i]. unfold count_output. destruct (N.ltb n _); reflexivity.
Qed.
Print Assumptions c47_quiet.

(** ** Extending *)
Section Extending.
Context {P V T R : Type} {OV : Ord V} {TT : Time T} {DR : Diff R} {MU : Multiply R R R}.
(** The values to extend a prefix with: those that all relations have, once each. *)
Theorem c47_agreed (xs : list (extender P V T R)) p t : xs <> [] -> NoDup (agreed xs p t) /\ forall v, In v (agreed xs p t) <-> forall x, In x xs -> multiplicity x p v t <> dzero.
Proof. intros H. split; [apply agreed_nodup|intros v; apply agreed_in; auto]. Qed.
(** Each prefix is extended with those, once each, with its multiplicity times the one the value has in one of the relations; and that relation has fewest values for the prefix, when some
    relation has no more than 2^31. *)
Theorem c47_extend (xs : list (extender P V T R)) ps : xs <> [] -> Forall counts_ok xs ->
  exists proposer : P -> T -> extender P V T R,
    (forall p t, In (proposer p t) xs) /\
    (forall p t, (forall y, In y xs -> 0 < length (candidates y p t) /\ (N.of_nat (length (candidates y p t)) < 2 ^ 64)%N) -> (exists y, In y xs /\ (N.of_nat (length (candidates y p t)) <= 2 ^ 31)%N) ->
       forall y, In y xs -> length (candidates (proposer p t) p t) <= length (candidates y p t)) /\
    Permutation (extend xs ps) (flat_map (extensions xs (fun p v t => multiplicity (proposer p t) p v t)) ps).
Proof.
  intros Hne HC. destruct xs as [|x0 xs'] eqn:Exs; [congruence|]. rewrite <- Exs in *. clear Hne. assert (Hne : xs <> []) by (subst; discriminate).
  assert (Hn : forall p t, nth_error xs (nominee xs p t) = Some (nth (nominee xs p t) xs x0)) by (intros p t; destruct (nominee_lt xs p t Hne) as (x & Ex); rewrite Ex, (nth_error_nth _ _ _ Ex); auto).
  exists (fun p t => nth (nominee xs p t) xs x0). split; [intros p t; eapply nth_error_In; eauto|]. split.
  - intros p t H1 H2. apply (nominee_min xs p t _ (Hn p t)); [intros y Hy; apply H1; auto|exact H2|intros y Hy; apply H1; auto].
  - eapply perm_trans; [apply extend_ok; auto|]. match goal with |- Permutation ?a ?b => assert (E : a = b); [|rewrite E; auto] end. apply flat_map_ext. intros [[p t] r]. unfold extensions. apply flat_map_ext. intros v.
    unfold proposer_multiplicity. rewrite Hn. auto.
Qed.
(** So over sets, of which every value has multiplicity one, it is their join, with the multiplicities of the prefixes. *)
Theorem c47_extend_sets (xs : list (extender P V T R)) (one : R) ps : xs <> [] -> Forall counts_ok xs -> (forall r, dmul r one = r) ->
  (forall x p v t, In x xs -> multiplicity x p v t = dzero \/ multiplicity x p v t = one) ->
  Permutation (extend xs ps) (flat_map (fun p => if is_zero (snd p) then [] else map (fun v => (fst (fst p), v, snd (fst p), snd p)) (agreed xs (fst (fst p)) (snd (fst p)))) ps).
Proof.
  intros Hne HC H1 HM. destruct (c47_extend xs ps Hne HC) as (pr & Hp & _ & HE). eapply perm_trans; [exact HE|]. match goal with |- Permutation ?a ?b => assert (E : a = b); [|rewrite E; auto] end.
  apply flat_map_ext. intros [[p t] r]. cbn [fst snd]. destruct (is_zero r) eqn:Er; [apply extensions_zero; auto|]. unfold extensions.
  assert (G : forall l, (forall v, In v l -> In v (agreed xs p t)) -> flat_map (fun v => let r' := dmul r (multiplicity (pr p t) p v t) in if is_zero r' then [] else [(p, v, t, r')]) l = map (fun v => (p, v, t, r)) l); [|apply G; auto].
  induction l as [|v l IH]; intros Hl; auto. cbn [flat_map map].
  assert (Hv : multiplicity (pr p t) p v t = one). { destruct (HM _ p v t (Hp p t)) as [Hz|]; auto. exfalso. apply (proj1 (agreed_in xs p t v Hne) (Hl v (or_introl eq_refl)) _ (Hp p t) Hz). }
  rewrite Hv, H1, Er. cbn [app]. f_equal. apply IH. intros v' Hv'; apply Hl; right; auto.
Qed.
End Extending.
Print Assumptions c47_agreed.
Print Assumptions c47_extend.
Print Assumptions c47_extend_sets.

(** A relation with multiplicities is not joined: [validate] only asks whether a value is there, so the result depends on which relation proposes. *)
Definition c47_ext (rel : list (nat * nat * nat * Z)) (counts : list (nat * unit * nat * Z)) : extender nat nat nat Z :=
  {| x_key := nat; x_ord := Ord_nat; x_rel := rel; x_counts := counts; x_selector := fun p => p |}.
Definition c47_x1 : extender nat nat nat Z := c47_ext [(1, 10, 0, 1%Z); (1, 11, 1, 1%Z)] [(1, tt, 0, 1%Z); (1, tt, 1, 1%Z)].
Definition c47_x2 : extender nat nat nat Z := c47_ext [(1, 10, 0, 3%Z); (2, 10, 0, 1%Z)] [(1, tt, 0, 1%Z); (2, tt, 0, 1%Z)].
Lemma c47_count_from (rel : list (nat * nat * nat * Z)) (counts : list (nat * unit * nat * Z)) :
  (forall k t, acc (D:=nat*unit) counts (k, tt) t = Z.of_nat (length (values_at rel k t))) -> counts_ok (c47_ext rel counts).
Proof. intros H. exact H. Qed.
Example c47_counts : counts_ok c47_x1 /\ counts_ok c47_x2.
Proof.
  split; apply c47_count_from; intros k t; (destruct k as [|[|[|k]]]; [reflexivity| |  |reflexivity]); (destruct t as [|t]; [reflexivity|]); vm_compute; destruct t; reflexivity.
Qed.
(** At time 0 the second relation proposes 10, with its multiplicity 3; at time 1 so again, having fewer values; the first relation's 11 is never agreed on. *)
Example c47_extend_runs : extend [c47_x1; c47_x2] [(1, 0, 2%Z); (2, 0, 1%Z); (1, 1, 1%Z)] = [(1, 10, 0, 6%Z); (1, 10, 1, 3%Z)].
Proof. vm_compute. reflexivity. Qed.
Theorem c47_validate_ignores_multiplicity_refuted : counts_ok c47_x1 /\ counts_ok c47_x2 /\ ~ same_weights (A:=nat*nat*nat) (extend [c47_x1; c47_x2] [(1, 0, 1%Z)]) (extend [c47_x2; c47_x1] [(1, 0, 1%Z)]).
Proof. split; [apply c47_counts|]. split; [apply c47_counts|]. intros H. specialize (H (1, 10, 0)). vm_compute in H. discriminate. Qed.
Print Assumptions c47_validate_ignores_multiplicity_refuted.
Example c47_sets : forall x p v t, In x [c47_x1; c47_x1] -> multiplicity x p v t = dzero \/ multiplicity x p v t = 1%Z.
Proof.
  intros x p v t Hx. assert (x = c47_x1) as -> by (destruct Hx as [<-|[<-|[]]]; auto). unfold multiplicity, c47_x1, c47_ext. cbn [x_rel x_selector x_key x_ord].
  unfold acc. cbn [filter fst snd]. destruct (eqb (1, 10) (p, v)) eqn:E1, (eqb (1, 11) (p, v)) eqn:E2; cbn [andb].
  - apply (proj1 (eqb_eq _ _)) in E1. apply (proj1 (eqb_eq _ _)) in E2. congruence.
  - destruct (tle 0 t); [right|left]; reflexivity.
  - destruct (tle 1 t); [right|left]; reflexivity.
  - left; reflexivity.
Qed.

(** ** A concrete run: over the history of SpineProps, merged and compacted, one prefix is answered and one is kept back. *)
Definition c47_msgs : list (nat * list (nat * nat * Z)) := [(4, [(7, 4, 3%Z); (1, 5, 2%Z)]); (6, [(2, 6, 1%Z)])].
Definition c47_run := l_activate (D:=nat*nat) (R3:=Z) ov_batch_ops ov_ops ovc_new (fun p => p) propose_output (sd_spine (c21_side1 [5])) c47_msgs [6] [6] (l_start ([3], [4])).
Example c47_run_ok : option_map (fun x => (l_stash (fst x), snd x)) c47_run = Some ([(6, [(2, 6, 1%Z)])], [(4, [(1, 11, 5, 2%Z)])]).
Proof. vm_compute. reflexivity. Qed.
Example c47_reaches : exists w : lworld (OrdValBatch nat nat nat Z) (OrdValMerger nat nat nat Z) nat nat Z (nat * nat) Z,
  lreaches ov_batch_ops ov_contents ov_laws ov_ops ovc_new (fun p => p) propose_output ([3], [4]) w /\
  l_produced w = [(1, 11, 5, 2%Z)] /\ l_owed w = [(2, 6, 1%Z)] /\ lw_asked w = flat_map snd c47_msgs /\ sd_hist (lw_in w) = c14_h.
Proof.
  assert (HB : forall (a b t : nat), a <= b -> beyond [b] t -> beyond [a] t).
  { intros a b t Hab (f & [<-|[]] & Hf). exists a. split; [left; auto|]. eapply tle_trans; [|exact Hf]. apply nat_tle; auto. }
  pose proof c47_run_ok as R. destruct c47_run as [[h' outs]|] eqn:En; [|discriminate]. cbn [option_map fst snd] in R. injection R as Eh Eo. subst outs.
  eexists. split; [eapply lr_step; [apply lr_start|eapply (ls_activate _ _ _ _ _ _ _ (c21_side1 [5]) (c21_side1 [6]) [4] [6] [] (l_start ([3], [4])) h' [] c47_msgs [] [6])]|].
  - unfold lstarts. cbn [lw_in lw_front lw_asked lw_op lw_out c21_side1 sd_logical sd_physical sd_upper fst snd].
    split; [exists 1, c14_ops; split; [apply c14_history|split; [vm_compute; reflexivity|split; constructor]]|]. split; [split; auto|].
    split; [intros t; apply HB; lia|]. auto.
  - exists []. split; [reflexivity|]. split; [reflexivity|]. split; [constructor|]. split; [intros t; apply HB; lia|constructor].
  - repeat constructor; try (exists 4; split; [left; reflexivity|reflexivity]).
  - intros t. apply HB. lia.
  - exact En.
  - unfold l_produced, l_owed. cbn [lw_out lw_op lw_asked lw_in]. rewrite Eh. repeat split.
Qed.
