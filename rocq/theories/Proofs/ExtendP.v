(** Extending prefixes: whoever proposes, the values are those all relations have. *)
From Verif Require Export Spec.ExtendSpec Proofs.LookupP.

Section Extend.
Context {P V T R : Type} {OV : Ord V} {TT : Time T} {DR : Diff R} {MU : Multiply R R R}.
#[local] Existing Instance x_ord.
Notation ext := (extender P V T R).

Lemma flat_map_swap {A B C} (f : A -> B -> list C) (l : list A) (m : list B) : Permutation (flat_map (fun a => flat_map (f a) m) l) (flat_map (fun b => flat_map (fun a => f a b) l) m).
Proof.
  induction l as [|a l IH]; cbn [flat_map]; [induction m; simpl; auto|]. eapply perm_trans; [apply Permutation_app_head, IH|]. clear IH.
  induction m as [|b m IH]; cbn [flat_map]; auto. rewrite <- !app_assoc. apply Permutation_app_head. eapply perm_trans; [|apply Permutation_app_head, IH]. rewrite !app_assoc. apply Permutation_app_tail, Permutation_app_comm.
Qed.
Lemma flat_map_flat_map {A B C} (f : B -> list C) (g : A -> list B) (l : list A) : flat_map f (flat_map g l) = flat_map (fun a => flat_map f (g a)) l.
Proof. induction l as [|a l IH]; simpl; auto. rewrite flat_map_app, IH. auto. Qed.

Definition present (x : ext) (p : P) (t : T) (v : V) : bool := negb (is_zero (multiplicity x p v t)).
Lemma present_iff x p t v : present x p t v = true <-> multiplicity x p v t <> dzero.
Proof. unfold present. rewrite negb_true_iff, <- not_true_iff_false, is_zero_spec. reflexivity. Qed.
Lemma candidates_in x p t v : In v (candidates x p t) <-> present x p t v = true.
Proof. rewrite present_iff. apply values_at_in. Qed.
Lemma agreed_nodup (xs : list ext) p t : NoDup (agreed xs p t).
Proof. destruct xs; [constructor|]. apply NoDup_filter, values_at_nodup. Qed.
Lemma agreed_in (xs : list ext) p t v : xs <> [] -> (In v (agreed xs p t) <-> forall x, In x xs -> multiplicity x p v t <> dzero).
Proof.
  destruct xs as [|x xs]; [congruence|]. intros _. unfold agreed. rewrite filter_In, candidates_in, forallb_forall. split.
  - intros [_ H] y Hy. apply present_iff, (H y Hy).
  - intros H. split; [apply present_iff, H; left; auto|]. intros y Hy. apply present_iff, H, Hy.
Qed.

(** ** Validating *)
Lemma acc_validate (x : ext) k v t : acc (D:=x_key x*V*unit) (x_validate x) (k, v, tt) t = acc (D:=x_key x*V) (x_rel x) (k, v) t.
Proof.
  unfold x_validate. induction (x_rel x) as [|[[[k0 v0] t0] r0] us IH]; auto. cbn [map fst snd]. rewrite !acc_cons, IH. cbn [fst snd].
  assert (E : eqb (k0, v0, tt) (k, v, tt) = eqb (k0, v0) (k, v)); [|rewrite E; reflexivity].
  destruct (eqb_spec (k0, v0, tt) (k, v, tt)) as [E|E], (eqb_spec (k0, v0) (k, v)) as [E'|E']; congruence.
Qed.
Lemma unit_list (l : list unit) : NoDup l -> l = [] \/ l = [tt].
Proof. destruct l as [|[] l]; auto. intros H. inversion H as [|? ? Hn _]; subst. destruct l as [|[] l]; auto. destruct Hn. left; auto. Qed.
Lemma values_unit {K R2} {OK : Ord K} {D2 : Diff R2} (us : list (K * unit * T * R2)) k t : values_at us k t = if is_zero (acc (D:=K*unit) us (k, tt) t) then [] else [tt].
Proof.
  pose proof (values_at_in us k t tt) as H. destruct (unit_list _ (values_at_nodup us k t)) as [E|E]; rewrite E in *; destruct (is_zero (acc us (k, tt) t)) eqn:Ez; auto.
  - exfalso. apply <- H. intros Hz. apply is_zero_spec in Hz. congruence.
  - exfalso. apply is_zero_spec in Ez. apply H; [left; auto|auto].
Qed.
Definition only {A B} (f : A -> B -> bool) (p : A * B) : bool := f (fst p) (snd p).
Lemma validate_ok (x : ext) es : Forall (fun e => is_zero (snd e) = false) es -> ext_validate x es = filter (fun e => present x (fst (fst (fst e))) (snd (fst e)) (snd (fst (fst e)))) es.
Proof.
  induction 1 as [|[[[p v] t] r] es Hr _ IH]; auto. unfold ext_validate, LookupSpec.lookups in *. cbn [flat_map filter fst snd] in *. rewrite IH. clear IH.
  unfold LookupSpec.lookup. rewrite values_unit. cbn [fst snd]. rewrite acc_validate. fold (multiplicity x p v t). unfold present. destruct (is_zero (multiplicity x p v t)); auto. cbn [flat_map validate_output negb]. rewrite Hr. reflexivity.
Qed.
Lemma validates_ok : forall (xs : list (nat * ext)) es, Forall (fun e => is_zero (snd e) = false) es ->
  fold_left (fun es o => ext_validate (snd o) es) xs es = filter (fun e => forallb (fun o => present (snd o) (fst (fst (fst e))) (snd (fst e)) (snd (fst (fst e)))) xs) es.
Proof.
  induction xs as [|o xs IH]; intros es H; cbn [fold_left forallb].
  - symmetry. clear H. induction es as [|e es IH]; cbn [filter]; [auto|rewrite IH; auto].
  - rewrite validate_ok by auto. rewrite IH.
    + clear. induction es as [|e es IH]; auto. cbn [filter]. destruct (present (snd o) _ _ _); cbn [andb filter]; rewrite IH; auto.
    + apply Forall_forall. intros e He. apply filter_In in He as [He _]. rewrite Forall_forall in H. auto.
Qed.
Lemma validates_flat {A} (f : A -> list (P * V * T * R)) (xs : list (nat * ext)) (l : list A) : fold_left (fun es o => ext_validate (snd o) es) xs (flat_map f l) = flat_map (fun a => fold_left (fun es o => ext_validate (snd o) es) xs (f a)) l.
Proof.
  revert f. induction xs as [|o xs IH]; intros f; cbn [fold_left]; auto. unfold ext_validate at 2, LookupSpec.lookups. rewrite flat_map_flat_map. rewrite IH. auto.
Qed.
Lemma propose_nz (x : ext) ps : Forall (fun e => is_zero (snd e) = false) (ext_propose x ps).
Proof.
  unfold ext_propose, LookupSpec.lookups. apply Forall_forall. intros e He. apply in_flat_map in He as ([[p t] r] & _ & He). apply in_flat_map in He as (v & _ & He).
  unfold propose_output in He. destruct (is_zero (dmul r _)) eqn:E; [destruct He|]. destruct He as [<-|[]]. exact E.
Qed.

(** ** Counting *)
Definition size (x : ext) (p : P) (t : T) : nat := length (candidates x p t).
Definition usize (n : nat) : N := Z.to_N (Z.of_nat n mod 2 ^ 64).
Fixpoint nominate (index : nat) (xs : list ext) (p : P) (t : T) (c : N) (i : nat) : option (N * nat) :=
  match xs with
  | [] => Some (c, i)
  | x :: xs => if size x p t =? 0 then None
               else if N.ltb c (usize (size x p t)) then nominate (S index) xs p t c i else nominate (S index) xs p t (usize (size x p t)) index
  end.
Definition nominated (index : nat) (xs : list ext) (u : P * N * nat * T * R) : list (P * N * nat * T * R) :=
  let '(p, c, i, t, r) := u in match nominate index xs p t c i with Some (c', i') => [(p, c', i', t, r)] | None => [] end.
Lemma count_one (x : ext) index p c i t r : counts_ok x -> is_zero r = false ->
  ext_count x index [(p, c, i, t, r)] = if size x p t =? 0 then [] else if N.ltb c (usize (size x p t)) then [(p, c, i, t, r)] else [(p, usize (size x p t), index, t, r)].
Proof.
  intros HC Hr. unfold ext_count, LookupSpec.lookups, LookupSpec.lookup. cbn [flat_map]. rewrite values_unit, HC. cbn [fst snd]. fold (candidates x p t). fold (size x p t). rewrite app_nil_r.
  destruct (size x p t) as [|n] eqn:En; [reflexivity|]. destruct (is_zero (Z.of_nat (S n))) eqn:Ez; [apply is_zero_spec in Ez; discriminate|]. cbn [flat_map Nat.eqb]. rewrite app_nil_r.
  rewrite HC. fold (candidates x p t). fold (size x p t). rewrite En. unfold count_output. fold (usize (S n)). destruct (N.ltb c (usize (S n))); rewrite Hr; reflexivity.
Qed.
Lemma count_flat (x : ext) index l : ext_count x index l = flat_map (fun u => ext_count x index [u]) l.
Proof. unfold ext_count, LookupSpec.lookups. apply flat_map_ext. intros a. cbn [flat_map]. rewrite app_nil_r. auto. Qed.
Lemma counts_flat : forall (xs : list ext) index l, ext_counts index xs l = flat_map (fun u => ext_counts index xs [u]) l.
Proof.
  induction xs as [|x xs IH]; intros index l; cbn [ext_counts]; [induction l as [|u l IHl]; [auto|cbn [flat_map app]; rewrite <- IHl; auto]|].
  rewrite IH, count_flat, flat_map_flat_map. apply flat_map_ext. intros u. symmetry. apply IH.
Qed.
Lemma counts_one : forall (xs : list ext) index u, Forall counts_ok xs -> is_zero (snd u) = false -> ext_counts index xs [u] = nominated index xs u.
Proof.
  induction xs as [|x xs IH]; intros index [[[[p c] i] t] r] HC Hr; auto. cbn [snd] in Hr. inversion HC; subst. cbn [ext_counts]. rewrite count_one by auto. unfold nominated. cbn [nominate].
  destruct (size x p t =? 0); [rewrite counts_flat; auto|]. destruct (N.ltb c (usize (size x p t))); rewrite IH by auto; reflexivity.
Qed.
Lemma nominate_none : forall xs index p t c i, nominate index xs p t c i = None -> exists x, In x xs /\ size x p t = 0.
Proof.
  induction xs as [|x xs IH]; intros index p t c i H; [discriminate|]. cbn [nominate] in H. destruct (Nat.eqb_spec (size x p t) 0) as [E|]; [exists x; split; [left|]; auto|].
  destruct (N.ltb c _); apply IH in H as (y & Hy & Ey); exists y; split; [right| |right|]; auto.
Qed.
Lemma nominate_some : forall xs index p t c i c' i', nominate index xs p t c i = Some (c', i') ->
  (c' <= c)%N /\ Forall (fun x => (c' <= usize (size x p t))%N) xs /\
  ((c' = c /\ i' = i /\ Forall (fun x => (c < usize (size x p t))%N) xs) \/ (exists n x, i' = index + n /\ nth_error xs n = Some x /\ c' = usize (size x p t))).
Proof.
  induction xs as [|x xs IH]; intros index p t c i c' i' H; cbn [nominate] in H.
  - inversion H; subst. split; [lia|]. split; [constructor|]. left. auto.
  - destruct (size x p t =? 0); [discriminate|]. destruct (N.ltb_spec c (usize (size x p t))) as [Hl|Hl]; apply IH in H as (H1 & H2 & H3).
    + split; [auto|]. split; [constructor; auto; lia|]. destruct H3 as [(E1 & E2 & E3)|(n & y & E1 & E2 & E3)]; [left; repeat split; auto|right; exists (S n), y; repeat split; auto; lia].
    + split; [lia|]. split; [constructor; auto|]. right. destruct H3 as [(E1 & E2 & E3)|(n & y & E1 & E2 & E3)]; [exists 0, x; repeat split; auto; lia|exists (S n), y; repeat split; auto; lia].
Qed.
Definition nominee (xs : list ext) (p : P) (t : T) : nat := match xs with [x] => 0 | _ => match nominate 0 xs p t (2 ^ 31) 0 with Some (_, i) => i | None => 0 end end.
Lemma nominee_lt xs p t : xs <> [] -> exists x, nth_error xs (nominee xs p t) = Some x.
Proof.
  intros H. assert (Z : exists x, nth_error xs 0 = Some x) by (destruct xs; [congruence|simpl; eauto]). unfold nominee. destruct xs as [|x [|x1 xs]]; auto.
  destruct (nominate 0 (x :: x1 :: xs) p t (2 ^ 31) 0) as [[c i]|] eqn:E; auto. apply nominate_some in E as (_ & _ & [(_ & -> & _)|(n & y & -> & E & _)]); eauto.
Qed.
Lemma usize_small n : (N.of_nat n < 2 ^ 64)%N -> usize n = N.of_nat n.
Proof. intros H. unfold usize. rewrite Z.mod_small; [lia|]. split; [lia|]. apply N2Z.inj_lt in H. rewrite nat_N_Z in H. exact H. Qed.
Lemma nominee_min xs p t x : nth_error xs (nominee xs p t) = Some x -> (forall y, In y xs -> (N.of_nat (size y p t) < 2 ^ 64)%N) -> (exists y, In y xs /\ (N.of_nat (size y p t) <= 2 ^ 31)%N) ->
  (forall y, In y xs -> 0 < size y p t) -> forall y, In y xs -> size x p t <= size y p t.
Proof.
  intros Ex Hs (y0 & Hy0 & Hl0) Hp y Hy. unfold nominee in Ex. destruct xs as [|x0 [|x1 xs]]; [destruct Hy|destruct Hy as [<-|[]]; inversion Ex; lia|].
  remember (x0 :: x1 :: xs) as l eqn:El. destruct (nominate 0 l p t (2 ^ 31) 0) as [[c i]|] eqn:E.
  - apply nominate_some in E as (_ & H2 & [(_ & _ & H)|(n & z & -> & E & Ec)]).
    + rewrite Forall_forall in H. specialize (H _ Hy0). rewrite usize_small in H by auto. lia.
    + cbn [plus] in Ex. rewrite Ex in E. inversion E; subst z. rewrite Forall_forall in H2. specialize (H2 _ Hy). subst c. rewrite !usize_small in H2 by (apply Hs; auto; eapply nth_error_In; eauto). lia.
  - apply nominate_none in E as (z & Hz & Ez). specialize (Hp _ Hz). lia.
Qed.

(** ** One prefix *)
Definition chain (xs : list ext) (ix : nat * ext) (ps : list (P * T * R)) : list (P * V * T * R) :=
  fold_left (fun es other => ext_validate (snd other) es) (filter (fun o => negb (fst o =? fst ix)) (enumerate xs)) (ext_propose (snd ix) ps).
Lemma enumerate_in (xs : list ext) i x : In (i, x) (enumerate xs) <-> nth_error xs i = Some x.
Proof.
  unfold enumerate. assert (G : forall (xs : list ext) n i, In (i, x) (List.combine (seq n (length xs)) xs) <-> exists j, i = n + j /\ nth_error xs j = Some x).
  { induction xs0 as [|y l IH]; intros n j; cbn [length seq List.combine].
    - split; [intros []|intros (k & _ & E)]. destruct k; discriminate.
    - cbn [In]. rewrite IH. split.
      + intros [E|(k & -> & E)]; [inversion E; subst; exists 0; split; [lia|auto]|exists (S k); split; [lia|auto]].
      + intros ([|k] & -> & E); [left; inversion E; f_equal; lia|right; exists k; split; [lia|auto]]. }
  rewrite G. split; [intros (j & -> & E); exact E|intros E; exists i; auto].
Qed.
Lemma enumerate_fst (xs : list ext) : map fst (enumerate xs) = seq 0 (length xs).
Proof. unfold enumerate. generalize 0. induction xs as [|x xs IH]; intros n; simpl; auto. rewrite IH. auto. Qed.
Lemma propose_one (x : ext) p t r : ext_propose x [(p, t, r)] = flat_map (fun v => let r' := dmul r (multiplicity x p v t) in if is_zero r' then [] else [(p, v, t, r')]) (candidates x p t).
Proof. unfold ext_propose, LookupSpec.lookups. cbn [flat_map]. rewrite app_nil_r. reflexivity. Qed.
Lemma filter_flat_if {A B} (f : B -> bool) (g : A -> bool) (h : A -> list B) (l : list A) : (forall a b, In b (h a) -> f b = g a) -> filter f (flat_map h l) = flat_map h (filter g l).
Proof.
  intros H. induction l as [|a l IH]; auto. cbn [flat_map filter]. rewrite filter_app, IH. destruct (g a) eqn:E; cbn [flat_map].
  - f_equal. assert (Ha : forall b, In b (h a) -> f b = true) by (intros b Hb; rewrite (H a b Hb); auto). clear - Ha. induction (h a) as [|b m IH]; auto. cbn [filter]. rewrite (Ha b) by (left; auto). rewrite IH; auto. intros c Hc. apply Ha. right; auto.
  - assert (Ha : forall b, In b (h a) -> f b = false) by (intros b Hb; rewrite (H a b Hb); auto). assert (E0 : filter f (h a) = []); [|rewrite E0; auto].
    clear - Ha. induction (h a) as [|b m IH]; auto. cbn [filter]. rewrite (Ha b) by (left; auto). apply IH. intros c Hc. apply Ha. right; auto.
Qed.
Lemma chain_one (xs : list ext) i x p t r : nth_error xs i = Some x -> Permutation (chain xs (i, x) [(p, t, r)]) (extensions xs (multiplicity x) (p, t, r)).
Proof.
  intros Ex. unfold chain. cbn [fst snd]. rewrite validates_ok by apply propose_nz. rewrite propose_one.
  rewrite (filter_flat_if _ (fun v => forallb (fun o => present (snd o) p t v) (filter (fun o => negb (fst o =? i)) (enumerate xs)))).
  2:{ intros v e He. cbv zeta in He. destruct (is_zero _); [destruct He|]. destruct He as [<-|[]]. reflexivity. }
  unfold extensions. apply Permutation_flat_map. assert (Hne : xs <> []) by (destruct xs; [destruct i; discriminate|congruence]).
  apply NoDup_Permutation; [apply NoDup_filter, values_at_nodup|apply agreed_nodup|]. intros v. rewrite (agreed_in _ _ _ _ Hne), filter_In, candidates_in, forallb_forall. split.
  - intros [H1 H2] y Hy. apply present_iff. apply In_nth_error in Hy as (j & Hj). destruct (Nat.eqb_spec j i) as [->|Hji]; [congruence|].
    apply (H2 (j, y)). apply filter_In. split; [apply enumerate_in; auto|]. cbn [fst]. destruct (Nat.eqb_spec j i); [contradiction|reflexivity].
  - intros H. split; [apply present_iff, H; eapply nth_error_In; eauto|]. intros [j y] Hy. apply filter_In in Hy as [Hy _]. apply enumerate_in in Hy. cbn [snd]. apply present_iff, H. eapply nth_error_In; eauto.
Qed.
Lemma part_flat {A} index (f : A -> list (P * N * nat * T * R)) l : ext_part index (flat_map f l) = flat_map (fun a => ext_part index (f a)) l.
Proof. unfold ext_part. induction l as [|a l IH]; auto. cbn [flat_map]. rewrite filter_app, map_app, IH. auto. Qed.
Lemma propose_flat {A} (x : ext) (f : A -> list (P * T * R)) l : ext_propose x (flat_map f l) = flat_map (fun a => ext_propose x (f a)) l.
Proof. unfold ext_propose, LookupSpec.lookups. apply flat_map_flat_map. Qed.
Lemma chain_flat {A} xs ix (f : A -> list (P * T * R)) l : chain xs ix (flat_map f l) = flat_map (fun a => chain xs ix (f a)) l.
Proof. unfold chain. rewrite propose_flat, validates_flat. auto. Qed.
Lemma chain_nil xs ix : chain xs ix [] = [].
Proof. change (@nil (P * T * R)) with (flat_map (fun _ : unit => @nil (P*T*R)) []). rewrite chain_flat. auto. Qed.

Definition start_count (p : P * T * R) : P * N * nat * T * R := (fst (fst p), (2 ^ 31)%N, 0, snd (fst p), snd p).
Lemma extend_one (xs : list ext) p t r : xs <> [] -> Forall counts_ok xs -> is_zero r = false ->
  Permutation (flat_map (fun ix => chain xs ix (ext_part (fst ix) (nominated 0 xs (start_count (p, t, r))))) (enumerate xs))
    (match nominate 0 xs p t (2 ^ 31) 0 with Some (_, i) => flat_map (fun ix => if fst ix =? i then chain xs ix [(p, t, r)] else []) (enumerate xs) | None => [] end).
Proof.
  intros Hne HC Hr. unfold nominated, start_count. cbn [fst snd]. destruct (nominate 0 xs p t (2 ^ 31) 0) as [[c i]|].
  - match goal with |- Permutation ?a ?b => assert (E : a = b); [|rewrite E; apply Permutation_refl] end. apply flat_map_ext. intros [j x]. cbn [fst]. unfold ext_part. cbn [filter fst snd]. rewrite Nat.eqb_sym. destruct (j =? i); cbn [map fst snd]; [auto|apply chain_nil].
  - match goal with |- Permutation ?a ?b => assert (E : a = b); [|rewrite E; apply Permutation_refl] end. induction (enumerate xs) as [|ix l IH]; auto. cbn [flat_map]. rewrite IH. unfold ext_part. cbn [filter map]. rewrite chain_nil. auto.
Qed.
Lemma pick_one {A} (f : nat * ext -> list A) xs i x : nth_error xs i = Some x -> flat_map (fun ix => if fst ix =? i then f ix else []) (enumerate xs) = f (i, x).
Proof.
  intros E. assert (Hin : In (i, x) (enumerate xs)) by (apply enumerate_in; auto). assert (HN : NoDup (map fst (enumerate xs))) by (rewrite enumerate_fst; apply seq_NoDup).
  revert HN Hin. generalize (enumerate xs). clear E. induction l as [|[j y] l IH]; intros HN Hin; [destruct Hin|]. cbn [flat_map fst]. inversion HN as [|? ? Hn HN']; subst. destruct Hin as [E|Hin].
  - inversion E; subst. rewrite Nat.eqb_refl. rewrite <- (app_nil_r (f (i, x))) at 2. f_equal. clear - Hn. induction l as [|[j y] l IH]; auto. cbn [flat_map fst map In] in *. destruct (Nat.eqb_spec j i); [tauto|]. apply IH. tauto.
  - destruct (Nat.eqb_spec j i) as [->|]; [exfalso; apply Hn; apply (in_map fst) in Hin; auto|]. apply IH; auto.
Qed.
Definition proposer_multiplicity (xs : list ext) (nom : P -> T -> nat) (p : P) (v : V) (t : T) : R := match nth_error xs (nom p t) with Some x => multiplicity x p v t | None => dzero end.

Lemma extensions_zero (xs : list ext) m p t r : is_zero r = true -> extensions xs m (p, t, r) = [].
Proof. intros H. apply is_zero_spec in H. subst. unfold extensions. induction (agreed xs p t) as [|v l IH]; auto. cbn [flat_map]. rewrite dmul_0_l, is_zero_dzero. auto. Qed.
Theorem extend_ok (xs : list ext) ps : xs <> [] -> Forall counts_ok xs ->
  Permutation (extend xs ps) (flat_map (extensions xs (proposer_multiplicity xs (nominee xs))) ps).
Proof.
  intros Hne HC.
  assert (Ext : forall x p t r, nth_error xs (nominee xs p t) = Some x -> extensions xs (multiplicity x) (p, t, r) = extensions xs (proposer_multiplicity xs (nominee xs)) (p, t, r)).
  { intros x p t r E. unfold extensions, proposer_multiplicity. apply flat_map_ext. intros v. rewrite E. auto. }
  destruct xs as [|x0 [|x1 xs']]; [congruence| |].
  - cbn [extend]. unfold ext_propose, LookupSpec.lookups. induction ps as [|[[p t] r] ps IH]; auto. cbn [flat_map]. apply Permutation_app; auto.
    rewrite <- (Ext x0 p t r eq_refl). eapply perm_trans; [|apply (chain_one [x0] 0 x0 p t r eq_refl)]. unfold chain. cbn [enumerate length seq List.combine filter fst snd Nat.eqb negb fold_left].
    unfold ext_propose, LookupSpec.lookups. cbn [flat_map]. rewrite app_nil_r. auto.
  - remember (x0 :: x1 :: xs') as xs eqn:Exs. assert (En : forall p t, nominee xs p t = match nominate 0 xs p t (2 ^ 31) 0 with Some (_, i) => i | None => 0 end) by (intros; rewrite Exs; reflexivity).
    assert (E : extend xs ps = flat_map (fun ix => chain xs ix (ext_part (fst ix) (ext_counts 0 xs (map start_count ps)))) (enumerate xs)) by (rewrite Exs; reflexivity).
    rewrite E. assert (E2 : ext_counts 0 xs (map start_count ps) = flat_map (fun p => if is_zero (snd p) then [] else nominated 0 xs (start_count p)) ps).
    { rewrite counts_flat. rewrite flat_map_concat_map, map_map, <- flat_map_concat_map. apply flat_map_ext. intros [[p t] r]. destruct (is_zero r) eqn:Er; cbn [snd]; rewrite Er.
      - rewrite Exs. cbn [ext_counts]. assert (Ez : ext_count x0 0 [start_count (p, t, r)] = []).
        { unfold ext_count. rewrite <- (lookups_nz _ _ _ [start_count (p, t, r)]); [|intros [[? ?] ?] ? ?; unfold count_output; destruct (N.ltb _ _); reflexivity]. unfold nz. cbn [filter start_count fst snd]. rewrite Er. reflexivity. }
        rewrite Ez. assert (Ez2 : ext_count x1 1 [] = @nil (P * N * nat * T * R)) by reflexivity. rewrite Ez2, counts_flat. reflexivity.
      - apply counts_one; auto. }
    rewrite E2. eapply perm_trans. { assert (E3 : forall ix, chain xs ix (ext_part (fst ix) (flat_map (fun p => if is_zero (snd p) then [] else nominated 0 xs (start_count p)) ps)) = flat_map (fun p => chain xs ix (ext_part (fst ix) (if is_zero (snd p) then [] else nominated 0 xs (start_count p)))) ps).
      { intros ix. rewrite part_flat, chain_flat. auto. } rewrite (flat_map_ext _ _ E3). apply flat_map_swap. }
    clear E E2. induction ps as [|[[p t] r] ps IH]; auto. cbn [flat_map]. apply Permutation_app; [|exact IH]. clear IH ps. cbn [snd]. destruct (is_zero r) eqn:Er.
    + rewrite extensions_zero by auto. induction (enumerate xs) as [|ix l IH]; auto. cbn [flat_map]. unfold ext_part. cbn [filter map]. rewrite chain_nil. auto.
    + eapply perm_trans; [apply extend_one; auto|]. destruct (nominee_lt xs p t Hne) as (x & Ex). rewrite <- (Ext x p t r Ex). rewrite En in Ex.
      destruct (nominate 0 xs p t (2 ^ 31) 0) as [[c i]|] eqn:E.
      * rewrite (pick_one (fun ix => chain xs ix [(p, t, r)]) xs i x Ex). apply chain_one; auto.
      * apply nominate_none in E as (y & Hy & Ey). assert (Ea : agreed xs p t = []); [|unfold extensions; rewrite Ea; auto].
        destruct (agreed xs p t) as [|v l] eqn:Ea; auto. exfalso. assert (Hv : In v (agreed xs p t)) by (rewrite Ea; left; auto). rewrite (agreed_in _ _ _ _ Hne) in Hv.
        specialize (Hv y Hy). apply present_iff, candidates_in in Hv. unfold size in Ey. destruct (candidates y p t); [destruct Hv|discriminate].
Qed.
End Extend.
