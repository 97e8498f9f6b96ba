From Coq Require Import String Ascii DecimalString DecimalN DecimalFacts.
From Verif Require Export Spec.ServerSpec.
From Coq Require Import Lia Permutation.

(** ** Maps *)
Section Maps.
Context {K V : Type} (keq : forall a b : K, {a = b} + {a <> b}).
Notation mget := (mget keq). Notation mput := (mput keq). Notation mdel := (mdel keq). Notation mhas := (mhas keq).

Lemma mget_del_eq (m : list (K * V)) k : mget (mdel m k) k = None.
Proof. induction m as [|[k' v] m IH]; simpl; auto. destruct (keq k' k) as [->|N]; simpl; auto. destruct (keq k' k); [contradiction|auto]. Qed.
Lemma mget_del_ne (m : list (K * V)) k j : j <> k -> mget (mdel m k) j = mget m j.
Proof.
  intros N. induction m as [|[k' v] m IH]; simpl; auto. destruct (keq k' k) as [->|N']; simpl.
  - destruct (keq k j); [congruence|auto].
  - destruct (keq k' j); auto.
Qed.
Lemma mget_put_eq (m : list (K * V)) k v : mget (mput m k v) k = Some v.
Proof. unfold ServerM.mput. simpl. destruct (keq k k); congruence. Qed.
Lemma mget_put_ne (m : list (K * V)) k v j : j <> k -> mget (mput m k v) j = mget m j.
Proof. intros N. unfold ServerM.mput. simpl. destruct (keq k j); [congruence|]. apply mget_del_ne; auto. Qed.
Lemma mget_in (m : list (K * V)) k v : mget m k = Some v -> In (k, v) m.
Proof. induction m as [|[k' v'] m IH]; simpl; [discriminate|]. destruct (keq k' k) as [->|N]; [injection 1 as ->; auto|auto]. Qed.
Lemma mget_none (m : list (K * V)) k : mget m k = None <-> ~ In k (map fst m).
Proof. induction m as [|[k' v'] m IH]; simpl; [tauto|]. destruct (keq k' k) as [->|N]; [split; [discriminate|intros H; destruct H; auto]|]. rewrite IH. intuition. Qed.
Lemma in_mdel (m : list (K * V)) k e : In e (mdel m k) <-> In e m /\ fst e <> k.
Proof. unfold ServerM.mdel. rewrite filter_In. destruct (keq (fst e) k); intuition congruence. Qed.
Lemma mdel_keys (m : list (K * V)) k j : In j (map fst (mdel m k)) <-> In j (map fst m) /\ j <> k.
Proof. rewrite !in_map_iff. split; [intros (e & <- & I); apply in_mdel in I as []; eauto|intros ((e & <- & I) & N); exists e; rewrite in_mdel; auto]. Qed.
Lemma mdel_unique (m : list (K * V)) k : NoDup (map fst m) -> NoDup (map fst (mdel m k)).
Proof.
  induction m as [|[k' v'] m IH]; simpl; auto. inversion 1 as [|? ? N1 N2]; subst. destruct (keq k' k); simpl; auto.
  constructor; auto. rewrite (mdel_keys m k k'). tauto.
Qed.
Lemma mput_unique (m : list (K * V)) k v : NoDup (map fst m) -> NoDup (map fst (mput m k v)).
Proof. intros U. simpl. constructor; [rewrite (mdel_keys m k k); tauto|apply mdel_unique; auto]. Qed.
Lemma mget_unique (m : list (K * V)) k v : NoDup (map fst m) -> In (k, v) m -> mget m k = Some v.
Proof.
  induction m as [|[k' v'] m IH]; simpl; [tauto|]. inversion 1 as [|? ? N1 N2]; subst. intros [E|I].
  - injection E as -> ->. destruct (keq k k); congruence.
  - destruct (keq k' k) as [->|]; [destruct N1; apply (in_map fst) in I; auto|auto].
Qed.
Lemma mhas_spec (m : list (K * V)) k : mhas m k = true <-> exists v, mget m k = Some v.
Proof. unfold ServerM.mhas. destruct (mget m k); split; eauto; [discriminate|intros [? ?]; discriminate]. Qed.
Lemma mhas_false (m : list (K * V)) k : mhas m k = false <-> mget m k = None.
Proof. unfold ServerM.mhas. destruct (mget m k); split; congruence. Qed.
Lemma mdel_none (m : list (K * V)) k : mget m k = None -> mdel m k = m.
Proof. induction m as [|[k' v'] m IH]; simpl; auto. destruct (keq k' k); [discriminate|]. intros H. f_equal; auto. Qed.
End Maps.

(** ** Names *)
Local Open Scope string_scope.
Fixpoint chars (P : ascii -> Prop) (s : string) : Prop := match s with EmptyString => True | String a s => P a /\ chars P s end.
Definition digit (c : ascii) : Prop := (48 <= nat_of_ascii c <= 57)%nat.

Lemma show_digits u : chars digit (NilEmpty.string_of_uint u).
Proof. induction u; simpl; auto; split; auto; unfold digit; split; apply Nat.leb_le; reflexivity. Qed.
Lemma show_nonempty n : show n <> "".
Proof.
  unfold show. destruct (N.to_uint n) eqn:E; try discriminate. exfalso.
  pose proof (Unsigned.of_to n) as H. destruct n; [discriminate E|]. rewrite E in H. discriminate H.
Qed.
Lemma chars_impl (P Q : ascii -> Prop) s : (forall c, P c -> Q c) -> chars P s -> chars Q s.
Proof. intros H. induction s; simpl; intuition. Qed.

Lemma split_once_at c a b : chars (fun x => x <> c) a -> split_once c (a ++ String c b) = Some (a, b).
Proof.
  induction a as [|x a IH]; simpl; intros H.
  - rewrite Ascii.eqb_refl. auto.
  - destruct H as [N H]. destruct (Ascii.eqb_spec x c); [congruence|]. rewrite IH; auto.
Qed.
Lemma split_on_at c a b : chars (fun x => x <> c) a -> split_on c (a ++ String c b) = a :: split_on c b.
Proof.
  induction a as [|x a IH]; simpl; intros H.
  - rewrite Ascii.eqb_refl. auto.
  - destruct H as [N H]. destruct (Ascii.eqb_spec x c); [congruence|]. rewrite IH; auto.
Qed.
Lemma split_on_none c a : chars (fun x => x <> c) a -> split_on c a = [a].
Proof. induction a as [|x a IH]; simpl; intros H; auto. destruct H as [N H]. destruct (Ascii.eqb_spec x c); [congruence|]. rewrite IH; auto. Qed.
Lemma strip_prefix_app p s : strip_prefix p (p ++ s) = Some s.
Proof. induction p; simpl; auto. rewrite Ascii.eqb_refl. auto. Qed.
Lemma chars_app P a b : chars P (a ++ b) <-> chars P a /\ chars P b.
Proof. induction a; simpl; intuition. Qed.
Lemma trim_start_none s : chars (fun c => is_space c = false) s -> trim_start s = s.
Proof. destruct s; simpl; auto. intros [-> _]. auto. Qed.
Lemma trim_end_none s : chars (fun c => is_space c = false) s -> trim_end s = s.
Proof. induction s as [|a s IH]; simpl; auto. intros [E H]. rewrite IH; auto. destruct s; auto. rewrite E. auto. Qed.
Lemma trim_none s : chars (fun c => is_space c = false) s -> trim s = s.
Proof. intros H. unfold trim. rewrite trim_start_none, trim_end_none; auto. Qed.

Lemma digit_not c x : digit x -> (nat_of_ascii c < 48 \/ 57 < nat_of_ascii c)%nat -> x <> c.
Proof. unfold digit. intros H N ->. lia. Qed.
Lemma digit_no_space x : digit x -> is_space x = false.
Proof.
  unfold digit, is_space. intros H. apply orb_false_intro.
  - apply andb_false_intro2. apply Nat.leb_gt. lia.
  - apply Nat.eqb_neq. lia.
Qed.
Lemma parse_show n : (n < Z.to_N two64)%N -> parse_u64 (show n) = Some n.
Proof.
  intros L. pose proof (show_nonempty n) as NE. pose proof (show_digits (N.to_uint n)) as DG. fold (show n) in DG.
  assert (U : NilEmpty.uint_of_string (show n) = Some (N.to_uint n)) by (unfold show; apply NilEmpty.usu).
  unfold parse_u64. destruct (show n) as [|a s] eqn:E; [congruence|].
  assert (match String a s with String "+" s0 => s0 | _ => String a s end = String a s) as ->.
  { destruct DG as [DG _]. assert (NP : a <> "+"%char) by (apply (digit_not _ _ DG); left; apply Nat.ltb_lt; reflexivity).
    destruct a as [[] [] [] [] [] [] [] []]; auto; congruence. }
  rewrite U. rewrite Unsigned.of_to. apply N.ltb_lt in L. rewrite L. auto.
Qed.
Lemma parse_trim_show n : (n < Z.to_N two64)%N -> parse_u64 (trim (show n)) = Some n.
Proof.
  intros L. rewrite trim_none; [apply parse_show; auto|]. eapply chars_impl; [|apply show_digits]. apply digit_no_space.
Qed.
Lemma show_no c n : (nat_of_ascii c < 48 \/ 57 < nat_of_ascii c)%nat -> chars (fun x => x <> c) (show n).
Proof. intros N. eapply chars_impl; [|apply show_digits]. intros x H. apply (digit_not c x H N). Qed.

Definition fits (r : Recipe) : Prop :=
  match r with
  | Random a b c d => (a < Z.to_N two64 /\ b < Z.to_N two64 /\ c < Z.to_N two64 /\ d < Z.to_N two64)%N
  | Iota a => (a < Z.to_N two64)%N
  end.
Lemma string_app_assoc (a b c : string) : (a ++ b) ++ c = a ++ (b ++ c).
Proof. induction a; simpl; congruence. Qed.

Lemma param_show k n : chars (fun x => x <> "="%char) k -> split_once "=" (k ++ "=" ++ show n) = Some (k, show n).
Proof. intros H. apply split_once_at. auto. Qed.
Lemma param_ok k n : chars (fun x => x <> ","%char) k -> chars (fun x => x <> ","%char) (k ++ "=" ++ show n).
Proof.
  intros H. apply chars_app. split; auto. simpl. split; [discriminate|]. apply show_no. left. apply Nat.ltb_lt. reflexivity.
Qed.
Ltac plain := simpl; repeat split; discriminate.
Lemma recipe_of_canonical r : fits r -> recipe_parse (canonical r) = Some r.
Proof.
  destruct r as [nodes edges arity seed|n].
  - intros (L1 & L2 & L3 & L4). unfold recipe_parse, canonical.
    assert (S0 : strip_prefix "random:" ("random:nodes=" ++ show nodes ++ ",edges=" ++ show edges ++ ",arity=" ++ show arity ++ ",seed=" ++ show seed)
      = Some (("nodes=" ++ show nodes) ++ String "," (("edges=" ++ show edges) ++ String "," (("arity=" ++ show arity) ++ String "," ("seed=" ++ show seed))))).
    { change ("random:nodes=" ++ show nodes ++ ",edges=" ++ show edges ++ ",arity=" ++ show arity ++ ",seed=" ++ show seed)
        with ("random:" ++ ("nodes=" ++ show nodes ++ ",edges=" ++ show edges ++ ",arity=" ++ show arity ++ ",seed=" ++ show seed)).
      rewrite strip_prefix_app, !string_app_assoc. auto. }
    rewrite S0. clear S0.
    rewrite !split_on_at, split_on_none.
    + simpl. rewrite (parse_trim_show nodes), (parse_trim_show edges), (parse_trim_show arity), (parse_trim_show seed); auto.
    + apply (param_ok "seed"); plain.
    + apply (param_ok "arity"); plain.
    + apply (param_ok "edges"); plain.
    + apply (param_ok "nodes"); plain.
  - simpl. intros L. unfold recipe_parse. simpl. rewrite parse_trim_show; auto.
Qed.
Lemma parse_u64_fits s n : parse_u64 s = Some n -> (n < Z.to_N two64)%N.
Proof.
  unfold parse_u64. set (s' := match s with String "+" x => x | _ => s end). clearbody s'.
  destruct s'; [discriminate|]. destruct (NilEmpty.uint_of_string _); [|discriminate].
  destruct (N.ltb_spec (N.of_uint u) (Z.to_N two64)); [injection 1 as <-; auto|discriminate].
Qed.
Definition fits_o (o : option N) : Prop := match o with Some n => (n < Z.to_N two64)%N | None => True end.
Lemma parse_params_fits kvs : forall a b c d a' b' c' d', parse_params kvs (a, b, c, d) = Some (a', b', c', d') ->
  fits_o a -> fits_o b -> (c < Z.to_N two64)%N -> (d < Z.to_N two64)%N -> fits_o a' /\ fits_o b' /\ (c' < Z.to_N two64)%N /\ (d' < Z.to_N two64)%N.
Proof.
  induction kvs as [|kv kvs IH]; intros a b c d a' b' c' d'.
  - cbn [parse_params]. injection 1 as -> -> -> ->. auto.
  - cbn [parse_params]. destruct (split_once "=" kv) as [[k v]|]; [|discriminate].
    destruct (parse_u64 (trim v)) as [n|] eqn:E.
    + apply parse_u64_fits in E. repeat (destruct (String.eqb (trim k) _); [intros H ? ? ? ?; eapply IH in H; eauto|]). discriminate.
    + repeat (destruct (String.eqb (trim k) _); [discriminate|]). discriminate.
Qed.
Lemma recipe_parse_fits s r : recipe_parse s = Some r -> fits r.
Proof.
  unfold recipe_parse. destruct (strip_prefix "random:" s) as [ps|].
  - destruct (parse_params (split_on "," ps) (None, None, 2%N, 0%N)) as [[[[a b] c] d]|] eqn:E; [|discriminate].
    apply parse_params_fits in E; [|exact I|exact I|reflexivity|reflexivity].
    destruct a as [a|]; [|discriminate]. destruct b as [b|]; [|discriminate]. injection 1 as <-. simpl in *. tauto.
  - destruct (strip_prefix "iota:" s) as [n|]; [|discriminate]. destruct (parse_u64 (trim n)) eqn:E; [|discriminate].
    injection 1 as <-. apply parse_u64_fits in E. auto.
Qed.
Lemma canonical_name_idem s : canonical_source_name (canonical_source_name s) = canonical_source_name s.
Proof.
  unfold canonical_source_name at 2 3. destruct (recipe_parse s) as [r|] eqn:E.
  - unfold canonical_source_name. rewrite recipe_of_canonical; eauto using recipe_parse_fits.
  - unfold canonical_source_name. rewrite E. auto.
Qed.
Lemma recipe_parse_canonical_name s : recipe_parse (canonical_source_name s) = recipe_parse s.
Proof.
  unfold canonical_source_name. destruct (recipe_parse s) as [r|] eqn:E; auto. apply recipe_of_canonical. eauto using recipe_parse_fits.
Qed.
Lemma canonical_inj r r' : fits r -> fits r' -> canonical r = canonical r' -> r = r'.
Proof. intros F F' E. apply recipe_of_canonical in F, F'. rewrite E in F. congruence. Qed.
