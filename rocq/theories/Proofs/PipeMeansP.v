(** Parsed terms mean what is written. *)
From Coq Require Import String.
From Verif Require Export Spec.PipeMeansSpec Proofs.PipeParseP Proofs.TermP.
From Coq Require Import Lia.
Local Open Scope nat_scope.

Lemma PT_rect' (P : PT -> Prop) :
  (forall n, P (PRow n)) -> (forall k, P (PBound k)) -> (forall n, P (PInt n)) -> (forall x, P (PName x)) ->
  (forall f args, Forall P args -> P (PCall f args)) -> (forall s arms, P s -> Forall (fun a => P (snd a)) arms -> P (PCase s arms)) ->
  (forall l i s, P l -> P i -> P s -> P (PFold l i s)) -> (forall t, P t -> P (PNeg t)) -> (forall op l r, P l -> P r -> P (PBin op l r)) ->
  (forall t i, P t -> P (PProj t i)) -> forall s, P s.
Proof.
  intros H1 H2 H3 H4 H5 H6 H7 H8 H9 H10. fix IH 1. intros [n|k|n|x|f args|s arms|l i s|t|op l r|t i].
  - apply H1. - apply H2. - apply H3. - apply H4.
  - apply H5. induction args as [|a args IHa]; constructor; [apply IH|exact IHa].
  - apply H6; [apply IH|]. induction arms as [|[p x] arms IHa]; constructor; [apply IH|exact IHa].
  - apply H7; apply IH. - apply H8; apply IH. - apply H9; apply IH. - apply H10; apply IH.
Qed.

(** ** The parts of definitions *)
Definition pick_of (cons : list (string * (nat * nat))) (ns : scope) (env : list Value) (g : Z) (payload : Value) : list (Pattern * PT) -> option Value -> option Value :=
  fix pick (l : list (Pattern * PT)) (default : option Value) : option Value :=
    match l with
    | [] => default
    | (Default, x) :: l => pick l (meaning cons ns env x)
    | (Ctor c xs, x) :: l =>
        ' (tag, _) <- lookup cons c;
        if (tag =? Z.to_nat g)%nat then meaning cons (enter xs payload ns) (env ++ [payload]) x else pick l default
    end.
Lemma meaning_case cons ns env s arms : meaning cons ns env (PCase s arms) = (v <- meaning cons ns env s; match v with VVariant g p => pick_of cons ns env g p arms None | _ => None end).
Proof. reflexivity. Qed.
Lemma flat_call k f args : flat_term k (PCall f args) <-> Forall (flat_term k) args.
Proof. cbn [flat_term]. induction args as [|a args IH]; [split; constructor|]. rewrite Forall_cons_iff, <- IH. reflexivity. Qed.
Lemma flat_case k s arms : flat_term k (PCase s arms) <-> flat_term k s /\ Forall (fun a => flat_term k (snd a)) arms.
Proof. cbn [flat_term]. apply and_iff_compat_l. induction arms as [|[p a] arms IH]; [split; constructor|]. rewrite Forall_cons_iff, <- IH. reflexivity. Qed.
Lemma safe_call cons k f args : safe cons k (PCall f args) <-> f <> "case"%string /\ f <> "fold"%string /\ Forall (safe cons k) args.
Proof. cbn [safe]. apply and_iff_compat_l. apply and_iff_compat_l. induction args as [|a args IH]; [split; constructor|]. rewrite Forall_cons_iff, <- IH. reflexivity. Qed.
Lemma safe_case cons k s arms : safe cons k (PCase s arms) <->
  safe cons k s /\ Forall (fun a => safe cons k (snd a)) arms /\ (gapless cons arms \/ forall d, In (Default, d) arms -> flat_term k d).
Proof.
  cbn [safe]. apply and_iff_compat_l. apply and_iff_compat_r. clear s. induction arms as [|[p a] arms IH]; [split; constructor|]. rewrite Forall_cons_iff, <- IH. reflexivity.
Qed.

(** ** Flat terms look only at the rows *)
Definition agree (k : nat) (e1 e2 : list Value) : Prop := forall n, n < k -> nth_error e1 n = nth_error e2 n.
Lemma agree_app k e1 e2 v1 v2 : agree k e1 e2 -> k <= length e1 -> k <= length e2 -> agree k (e1 ++ v1) (e2 ++ v2).
Proof. intros A L1 L2 n H. rewrite !nth_error_app1 by lia. auto. Qed.
Lemma flat_meaning cons k s : forall ns1 ns2 e1 e2, flat_term k s -> agree k e1 e2 -> k <= length e1 -> k <= length e2 -> meaning cons ns1 e1 s = meaning cons ns2 e2 s.
Proof.
  induction s as [| | | |f args IH|s arms IHs IH|l i s IHl IHi IHs|t IH|op l r IHl IHr|t i IH] using PT_rect'; intros ns1 ns2 e1 e2 F A L1 L2; try contradiction.
  - apply A. auto.
  - reflexivity.
  - apply flat_call in F. cbn [meaning]. assert (E : map (meaning cons ns1 e1) args = map (meaning cons ns2 e2) args).
    { apply map_ext_in. intros a Ha. apply (proj1 (Forall_forall _ _) IH a Ha); auto. apply (proj1 (Forall_forall _ _) F a Ha). }
    rewrite E. reflexivity.
  - apply flat_case in F. destruct F as [F1 F2]. rewrite !meaning_case. rewrite (IHs ns1 ns2 e1 e2) by auto. destruct (meaning cons ns2 e2 s) as [[| |g p|]|]; auto.
    generalize (@None Value) as d. clear IHs F1. induction arms as [|[pt x] arms IHa]; intros d; [reflexivity|]. apply Forall_cons_iff in IH. destruct IH as [IHx IH]. apply Forall_cons_iff in F2. destruct F2 as [Fx F2]. cbn [snd] in *.
    destruct pt as [c xs|]; cbn [pick_of].
    + destruct (lookup cons c) as [[tag ar]|]; auto. destruct (tag =? Z.to_nat g); [|apply IHa; auto]. apply IHx; auto; [apply agree_app; auto|rewrite app_length; lia|rewrite app_length; lia].
    + rewrite (IHx ns1 ns2 e1 e2) by auto. apply IHa; auto.
  - destruct F as (F1 & F2 & F3). cbn [meaning]. rewrite (IHl ns1 ns2 e1 e2) by auto. destruct (meaning cons ns2 e2 l) as [[| | |items]|]; auto. rewrite (IHi ns1 ns2 e1 e2) by auto. destruct (meaning cons ns2 e2 i) as [a|]; auto.
    generalize (Some a) as acc. clear a. induction items as [|x items IHn]; intros acc; [reflexivity|]. cbn [fold_left]. rewrite IHn. f_equal. destruct acc as [a|]; auto. apply IHs; auto; [apply agree_app; auto|rewrite app_length; lia|rewrite app_length; lia].
  - cbn [meaning]. rewrite (IH ns1 ns2 e1 e2) by auto. reflexivity.
  - destruct F as [F1 F2]. cbn [meaning]. rewrite (IHl ns1 ns2 e1 e2), (IHr ns1 ns2 e1 e2) by auto. reflexivity.
  - cbn [meaning]. rewrite (IH ns1 ns2 e1 e2) by auto. reflexivity.
Qed.
Lemma flat_elab k s : forall cx cx', flat_term k s -> cx_cons cx = cx_cons cx' -> elab cx s = elab cx' s.
Proof.
  induction s as [| | | |f args IH|s arms IHs IH|l i s IHl IHi IHs|t IH|op l r IHl IHr|t i IH] using PT_rect'; intros cx cx' F C; try contradiction; auto.
  - apply flat_call in F. rewrite !elab_call. assert (E : elab_args cx args = elab_args cx' args).
    { induction args as [|a args IHa]; auto. apply Forall_cons_iff in IH. destruct IH as [IHx IH]. apply Forall_cons_iff in F. destruct F as [Fx F]. cbn [elab_args]. rewrite (IHx cx cx'), IHa by auto. auto. }
    rewrite E. unfold call. rewrite C. reflexivity.
  - apply flat_case in F. destruct F as [F1 F2]. rewrite !elab_case. rewrite (IHs cx cx') by auto. destruct (elab cx' s); auto.
    assert (E : forall g d, elab_arms cx arms g d = elab_arms cx' arms g d); [|rewrite E; auto].
    clear IHs F1. induction arms as [|[pt x] arms IHa]; intros g d; [reflexivity|]. apply Forall_cons_iff in IH. destruct IH as [IHx IH]. apply Forall_cons_iff in F2. destruct F2 as [Fx F2]. cbn [snd] in *.
    destruct pt as [c xs|]; cbn [elab_arms].
    + rewrite C. destruct (lookup (cx_cons cx') c) as [[tag ar]|]; auto. destruct (length xs =? ar); auto. rewrite (IHx (bind_names xs cx) (bind_names xs cx')) by auto. destruct (elab _ x); auto.
    + rewrite (IHx cx cx') by auto. destruct (elab cx' x); auto.
  - destruct F as (F1 & F2 & F3). cbn [elab]. rewrite (IHl cx cx'), (IHi cx cx'), (IHs (deeper 2 cx) (deeper 2 cx')) by auto. reflexivity.
  - cbn [elab]. rewrite (IH cx cx') by auto. reflexivity.
  - destruct F as [F1 F2]. cbn [elab]. rewrite (IHl cx cx'), (IHr cx cx') by auto. reflexivity.
  - cbn [elab]. rewrite (IH cx cx') by auto. reflexivity.
Qed.

(** ** The binders the parser keeps, and the values they stand for *)
Definition named (r depth : nat) (env : list Value) (b : string * nat * nat) (n : string * (Value * nat)) : Prop :=
  fst (fst b) = fst n /\ snd b = snd (snd n) /\ 1 <= snd (fst b) <= depth /\ nth_error env (r + snd (fst b) - 1) = Some (fst (snd n)).
Definition compat (r : nat) (cx : Ctx) (ns : scope) (env : list Value) : Prop := length env = r + cx_depth cx /\ Forall2 (named r (cx_depth cx) env) (cx_binders cx) ns.
Lemma named_more r d env b n k vs : length env = r + d -> named r d env b n -> named r (d + k) (env ++ vs) b n.
Proof. intros L (A & B & C & D). split; auto. split; auto. split; [lia|]. rewrite nth_error_app1; auto. lia. Qed.
Lemma Forall2_imp {A B} (P Q : A -> B -> Prop) l l' : (forall a b, P a b -> Q a b) -> Forall2 P l l' -> Forall2 Q l l'.
Proof. intros H. induction 1; constructor; auto. Qed.
Lemma compat_deeper r cx ns env vs : compat r cx ns env -> compat r (deeper (length vs) cx) ns (env ++ vs).
Proof. intros [L F]. split; [simpl; rewrite app_length; lia|]. simpl. eapply Forall2_imp; [|exact F]. intros. apply named_more; auto. Qed.
Lemma compat_bind r cx ns env xs p : compat r cx ns env -> compat r (bind_names xs cx) (enter xs p ns) (env ++ [p]).
Proof.
  intros [L F]. split; [simpl; rewrite app_length; simpl; lia|]. unfold bind_names, enter. cbn [cx_binders cx_depth]. apply Forall2_app.
  - generalize 0 at 1 2 as o. set (d := cx_depth cx). intros o.
    assert (X : Forall2 (named r (S d) (env ++ [p])) (combine (map (fun n => (n, S d)) xs) (seq o (length xs))) (combine xs (map (fun i => (p, i)) (seq o (length xs))))).
    { revert o. induction xs as [|x xs IH]; intros o; [constructor|]. cbn [length seq map combine]. constructor; [|apply IH]. unfold named. cbn [fst snd]. split; auto. split; auto. split; [lia|].
      fold d in L. replace (r + S d - 1) with (length env) by lia. rewrite nth_error_app2, Nat.sub_diag by lia. auto. }
    clear - X. induction X; [constructor|]. simpl. apply Forall2_app; auto.
  - eapply Forall2_imp; [|exact F]. intros. rewrite <- Nat.add_1_r. apply named_more; auto.
Qed.
Lemma compat_name r cx ns env x t : compat r cx ns env -> resolve_binder cx x = Some t -> eval t env = (' (p, i) <- lookup ns x; part p i).
Proof.
  intros [L F] H. unfold resolve_binder in H. destruct (find_binder (cx_binders cx) x) as [[level field]|] eqn:E; [|discriminate]. injection H as <-.
  assert (X : exists p, lookup ns x = Some (p, field) /\ 1 <= level <= cx_depth cx /\ nth_error env (r + level - 1) = Some p).
  { clear L. induction F as [|[[n l] f] [m [p i]] bs ns' N F IH]; [discriminate|]. destruct N as (N1 & N2 & N3 & N4). cbn [fst snd] in *. subst m i. cbn [find_binder lookup] in *.
    destruct (String.eqb n x); [|auto]. injection E as <- <-. exists p. auto. }
  destruct X as (p & -> & LV & N). rewrite eval_proj. cbn [eval]. unfold bound_at. assert (LT : cx_depth cx - level < length env) by lia. apply Nat.ltb_lt in LT. rewrite LT.
  replace (length env - 1 - (cx_depth cx - level)) with (r + level - 1) by lia. rewrite N. reflexivity.
Qed.

(** ** Arguments *)
Lemma builtin_shape f us t : build_builtin f us = Some t -> (forall z, t <> TInt z) /\ (forall u, t <> TSpread u).
Proof.
  unfold build_builtin.
  repeat match goal with
         | |- (if ?b then _ else _) = _ -> _ => destruct b
         | |- match ?l with _ => _ end = _ -> _ => destruct l
         end; intros H; try discriminate H; injection H as <-; split; discriminate.
Qed.
Lemma elab_shape cx s t : elab cx s = Some t -> (forall z, t = TInt z -> exists n, s = PInt n /\ z = Z.of_nat n) /\ (forall u, t <> TSpread u).
Proof.
  destruct s; intros H.
  - injection H as <-. split; [discriminate|discriminate].
  - injection H as <-. split; [discriminate|discriminate].
  - injection H as <-. split; [intros z [= <-]; eauto|discriminate].
  - cbn [elab] in H. unfold resolve_binder in H. destruct (find_binder _ _) as [[]|]; [|discriminate]. injection H as <-. split; discriminate.
  - rewrite elab_call in H. destruct (elab_args cx args) as [us|]; [|discriminate]. unfold call in H. destruct (lookup (cx_cons cx) f) as [[tag ar]|].
    + destruct (length us =? ar); [|discriminate]. injection H as <-. split; discriminate.
    + apply builtin_shape in H. destruct H as [A B]. split; auto. intros z E. destruct (A z E).
  - rewrite elab_case in H. destruct (elab cx s); [|discriminate]. destruct (elab_arms _ _ _ _) as [[]|]; [|discriminate]. unfold make_case in H. destruct (mapO _ _); [|discriminate]. injection H as <-. split; discriminate.
  - cbn [elab] in H. destruct (elab cx s1); [|discriminate]. destruct (elab cx s2); [|discriminate]. destruct (elab _ s3); [|discriminate]. injection H as <-. split; discriminate.
  - cbn [elab] in H. destruct (elab cx s); [|discriminate]. injection H as <-. split; discriminate.
  - cbn [elab] in H. destruct (elab cx s1); [|discriminate]. destruct (elab cx s2); [|discriminate]. injection H as <-. split; discriminate.
  - cbn [elab] in H. destruct (elab cx s); [|discriminate]. injection H as <-. split; discriminate.
Qed.
Lemma build_all env us : Forall (fun u => forall w, u <> TSpread w) us -> build_of env us = all_of (map (fun u => eval u env) us).
Proof.
  induction 1 as [|u us N F IH]; [reflexivity|]. cbn [map all_of]. rewrite <- IH. change (build_of env (u :: us)) with
    (here <- (match u with TSpread inner => v <- eval inner env; match v with VTuple xs | VList xs => Some xs | _ => None end | _ => v <- eval u env; Some [v] end); rest <- build_of env us; Some (here ++ rest)).
  destruct u; try (destruct (eval _ env); auto; destruct (build_of env us); auto; fail). destruct (N u eq_refl).
Qed.
Lemma mix_mixes env us : forall acc, mix_of env us acc = mixes (map (fun u => eval u env) us) acc.
Proof. induction us as [|u us IH]; intros acc; [reflexivity|]. cbn [map mixes]. change (mix_of env (u :: us) acc) with (v <- eval u env; n <- as_int v; mix_of env us (hash_u64 (Z.lxor acc (as_u64 n)))). destruct (eval u env); auto. destruct (as_int _); auto. Qed.
Lemma elab_args_shape cx args us : elab_args cx args = Some us -> Forall2 (fun a u => elab cx a = Some u) args us.
Proof. revert us. induction args as [|a args IH]; intros us H; cbn [elab_args] in H; [injection H as <-; constructor|]. destruct (elab cx a) eqn:E; [|discriminate]. destruct (elab_args cx args); [|discriminate]. injection H as <-. constructor; auto. Qed.
Lemma spreadless cx args us : Forall2 (fun a u => elab cx a = Some u) args us -> Forall (fun u => forall w, u <> TSpread w) us.
Proof. induction 1; constructor; auto. intros w. apply elab_shape in H. apply H. Qed.

Lemma builtin_means cx f args us env t : Forall2 (fun a u => elab cx a = Some u) args us -> f <> "case"%string -> f <> "fold"%string -> build_builtin f us = Some t ->
  eval t env = builtin f args (map (fun u => eval u env) us).
Proof.
  intros F N1 N2 H. pose proof (spreadless _ _ _ F) as SP. unfold build_builtin in H. unfold builtin.
  apply String.eqb_neq in N1, N2. rewrite N1, N2 in H.
  destruct (String.eqb f "tuple"). { injection H as <-. rewrite eval_tuple, build_all by auto. reflexivity. }
  destruct (String.eqb f "list"). { injection H as <-. rewrite eval_list, build_all by auto. reflexivity. }
  destruct (String.eqb f "inject" || String.eqb f "variant")%bool. { destruct us as [|g [|u [|]]]; try discriminate. injection H as <-. reflexivity. }
  destruct (String.eqb f "proj").
  { destruct us as [|u [|w [|]]]; try discriminate; destruct w; try discriminate. injection H as <-. inversion F as [|a0 ? args0 ? E0 F0]; subst. inversion F0 as [|a1 ? args1 ? E1 F1]; subst. inversion F1; subst.
    apply elab_shape in E1. destruct E1 as [E1 _]. destruct (E1 _ eq_refl) as (m & -> & ->). rewrite eval_proj, Nat2Z.id. reflexivity. }
  destruct (String.eqb f "len"). { destruct us as [|u [|]]; try discriminate. injection H as <-. reflexivity. }
  destruct (String.eqb f "istag").
  { destruct us as [|u us]; try discriminate. destruct u; try discriminate. destruct us as [|w [|]]; try discriminate. injection H as <-. inversion F as [|a0 ? args0 ? E0 F0]; subst. inversion F0 as [|a1 ? args1 ? E1 F1]; subst. inversion F1; subst.
    apply elab_shape in E0. destruct E0 as [E0 _]. destruct (E0 _ eq_refl) as (m & -> & ->). reflexivity. }
  destruct (String.eqb f "not"). { destruct us as [|u [|]]; try discriminate. injection H as <-. reflexivity. }
  destruct (String.eqb f "or"). { destruct us as [|u [|w [|]]]; try discriminate. injection H as <-. reflexivity. }
  destruct (String.eqb f "if"). { destruct us as [|u [|w [|x [|]]]]; try discriminate. injection H as <-. reflexivity. }
  destruct (String.eqb f "hash"). { destruct us as [|u [|w us]]; try discriminate. injection H as <-. rewrite eval_hash, mix_mixes. reflexivity. }
  discriminate.
Qed.

(** ** Cases *)
Definition default_value (env : list Value) (d : option Term) : option Value := match d with Some d => eval d env | None => None end.
Lemma mapO_nth {A B} (f : A -> option B) l : forall out n a, mapO f l = Some out -> nth_error l n = Some a -> exists b, f a = Some b /\ nth_error out n = Some b.
Proof.
  induction l as [|x l IH]; intros out n a H N; [destruct n; discriminate|]. cbn [mapO] in H. destruct (f x) as [y|] eqn:E; [|discriminate]. destruct (mapO f l) as [ys|] eqn:E2; [|discriminate]. injection H as <-.
  destruct n as [|n]; [injection N as <-; exists y; auto|]. simpl in *. apply (IH ys n a); auto.
Qed.
Lemma mapO_len {A B} (f : A -> option B) l : forall out, mapO f l = Some out -> length out = length l.
Proof. induction l as [|x l IH]; intros out H; cbn [mapO] in H; [injection H as <-; auto|]. destruct (f x); [|discriminate]. destruct (mapO f l) as [ys|]; [|discriminate]. injection H as <-. simpl. f_equal. auto. Qed.
Lemma arm_count_spec tagged n : n < arm_count tagged <-> exists t a, In (t, a) tagged /\ n <= t.
Proof.
  unfold arm_count. assert (X : forall m, n < fold_left (fun m x => Nat.max m (S (fst x))) tagged m <-> n < m \/ exists t (a : Term), In (t, a) tagged /\ n <= t); [|rewrite X; split; [intros [H|H]; [lia|auto]|auto]].
  induction tagged as [|[t a] tagged IH]; intros m; cbn [fold_left fst].
  - split; [auto|intros [H|(t & a & [] & _)]; auto].
  - rewrite IH. split.
    + intros [H|(t' & a' & I & L)]; [|right; exists t', a'; simpl; auto]. destruct (Nat.le_gt_cases n t); [right; exists t, a; simpl; auto|left; lia].
    + intros [H|(t' & a' & [[= -> ->]|I] & L)]; [left; lia|left; lia|right; eauto].
Qed.
Lemma arm_for_in tagged n : (exists a, In (n, a) tagged) -> exists a, arm_for tagged n = Some a.
Proof. intros [a I]. induction tagged as [|[t b] tagged IH]; [destruct I|]. cbn [arm_for]. destruct (Nat.eqb_spec t n); [eauto|]. destruct I as [[= -> ->]|I]; [contradiction|auto]. Qed.
Lemma arm_for_some tagged n a : arm_for tagged n = Some a -> In (n, a) tagged.
Proof. induction tagged as [|[t b] tagged IH]; [discriminate|]. cbn [arm_for]. destruct (Nat.eqb_spec t n); [intros [= ->]; subst; simpl; auto|simpl; auto]. Qed.

Definition means_here (s : PT) : Prop := forall cx ns env r t, tags_fit (cx_cons cx) -> compat r cx ns env -> elab cx s = Some t -> safe (cx_cons cx) r s -> eval t env = meaning (cx_cons cx) ns env s.

Lemma arms_mean cx ns env r g p arms : tags_fit (cx_cons cx) -> compat r cx ns env -> Forall (fun a => means_here (snd a)) arms -> Forall (fun a => safe (cx_cons cx) r (snd a)) arms ->
  forall g0 d0 tagged d, elab_arms cx arms g0 d0 = Some (tagged, d) -> exists new,
    tagged = g0 ++ new /\
    pick_of (cx_cons cx) ns env g p arms (default_value env d0) = match arm_for new (Z.to_nat g) with Some a => eval a (env ++ [p]) | None => default_value env d end /\
    (forall x, d = Some x -> d0 = Some x \/ exists y, In (Default, y) arms /\ elab cx y = Some x) /\
    (forall t a, In (t, a) new -> exists c xs x ar, In (Ctor c xs, x) arms /\ lookup (cx_cons cx) c = Some (t, ar)) /\
    (forall c xs x t ar, In (Ctor c xs, x) arms -> lookup (cx_cons cx) c = Some (t, ar) -> exists a, In (t, a) new).
Proof.
  intros TF CO IH. induction arms as [|[pt x] arms IHa]; intros S g0 d0 tagged d H.
  - injection H as <- <-. exists []. rewrite app_nil_r. repeat split; auto; simpl; intros; contradiction.
  - apply Forall_cons_iff in IH. destruct IH as [IHx IH]. apply Forall_cons_iff in S. destruct S as [Sx S]. cbn [snd] in *. specialize (IHa IH S). destruct pt as [c xs|]; cbn [elab_arms] in H.
    + destruct (lookup (cx_cons cx) c) as [[tag ar]|] eqn:L; [|discriminate]. destruct (length xs =? ar); [|discriminate]. destruct (elab (bind_names xs cx) x) as [a|] eqn:E; [|discriminate].
      destruct (IHa _ _ _ _ H) as (new & -> & P & D & I1 & I2). exists ((tag, a) :: new). split; [rewrite <- app_assoc; auto|]. split; [|split; [|split]].
      * cbn [pick_of arm_for]. rewrite L. destruct (tag =? Z.to_nat g); [|auto]. symmetry. apply (IHx (bind_names xs cx) (enter xs p ns) (env ++ [p]) r a); auto. apply compat_bind. auto.
      * intros y Y. destruct (D y Y) as [Q|(z & Q & Q')]; auto. right. exists z. simpl. auto.
      * intros t b [[= <- <-]|I]; [exists c, xs, x, ar; simpl; auto|]. destruct (I1 _ _ I) as (c' & xs' & x' & ar' & Q & Q'). exists c', xs', x', ar'. simpl. auto.
      * intros c' xs' x' t ar' [[= <- <- <-]|I] Q; [rewrite L in Q; injection Q as <- <-; exists a; simpl; auto|]. destruct (I2 _ _ _ _ _ I Q) as [b B]. exists b. simpl. auto.
    + destruct (elab cx x) as [a|] eqn:E; [|discriminate]. destruct (IHa _ _ _ _ H) as (new & -> & P & D & I1 & I2). exists new. split; auto. split; [|split; [|split]].
      * cbn [pick_of]. rewrite <- (IHx cx ns env r a) by auto. exact P.
      * intros y Y. destruct (D y Y) as [[= ->]|(z & Q & Q')]; right; [exists x|exists z]; simpl; auto.
      * intros t b I. destruct (I1 _ _ I) as (c' & xs' & x' & ar' & Q & Q'). exists c', xs', x', ar'. simpl. auto.
      * intros c' xs' x' t ar' [[=]|I] Q. eauto.
Qed.

Lemma elab_means s : means_here s.
Proof.
  induction s as [n|k|n|x|f args IH|s arms IHs IH|l i s IHl IHi IHs|t IH|op l r0 IHl IHr|t i IH] using PT_rect'; intros cx ns env r u TF CO E S.
  - injection E as <-. reflexivity.
  - injection E as <-. cbn [eval meaning]. apply bound_rev.
  - injection E as <-. reflexivity.
  - cbn [elab] in E. eapply compat_name; eauto.
  - rewrite elab_call in E. destruct (elab_args cx args) as [us|] eqn:EA; [|discriminate]. apply elab_args_shape in EA. apply safe_call in S. destruct S as (N1 & N2 & S).
    assert (V : map (fun u => eval u env) us = map (meaning (cx_cons cx) ns env) args).
    { clear E N1 N2. induction EA as [|a w args us A EA IHa]; [reflexivity|]. apply Forall_cons_iff in IH. destruct IH as [IHx IH]. apply Forall_cons_iff in S. destruct S as [Sx S]. cbn [map]. f_equal; [|auto]. eapply IHx; eauto. }
    unfold call in E. cbn [meaning]. rewrite <- V. destruct (lookup (cx_cons cx) f) as [[tag ar]|] eqn:L.
    + destruct (length us =? ar); [|discriminate]. injection E as <-. change (eval (TInject (TInt (Z.of_nat tag)) (TTuple us)) env) with (v <- eval (TTuple us) env; Some (VVariant (as_u32 (Z.of_nat tag)) v)).
      rewrite eval_tuple, build_all by (eapply spreadless; eauto). destruct (all_of _); auto. do 2 f_equal. unfold as_u32. apply Z.mod_small. split; [lia|]. eapply TF; eauto.
    + eapply builtin_means; eauto.
  - rewrite elab_case in E. destruct (elab cx s) as [t|] eqn:E1; [|discriminate]. destruct (elab_arms cx arms [] None) as [[tagged d]|] eqn:E2; [|discriminate]. apply safe_case in S. destruct S as (S1 & S2 & S3).
    unfold make_case in E. match type of E with match mapO ?f ?l with _ => _ end = _ => destruct (mapO f l) as [al|] eqn:E3; [|discriminate] end. injection E as <-.
    rewrite eval_case, meaning_case. rewrite (IHs cx ns env r t) by auto. destruct (meaning (cx_cons cx) ns env s) as [[| |g p|]|]; auto.
    destruct (arms_mean cx ns env r g p arms TF CO IH S2 [] None tagged d E2) as (new & EN & P & D & I1 & I2). cbn [app] in EN. subst new. cbn [default_value] in P. rewrite P. rewrite arm_nth.
    set (n := Z.to_nat g) in *. destruct (Nat.lt_ge_cases n (arm_count tagged)) as [LT|GE].
    + destruct (mapO_nth _ _ _ n n E3) as (b & B1 & ->). { rewrite (nth_error_nth' _ 0) by (rewrite seq_length; auto). rewrite seq_nth by auto. auto. }
      cbn [option_map]. destruct (arm_for tagged n) as [a|] eqn:AF; [injection B1 as ->; auto|]. subst d. cbn [default_value]. destruct (D b eq_refl) as [[=]|(y & Y1 & Y2)].
      destruct S3 as [GL|FL].
      * exfalso. apply arm_count_spec in LT. destruct LT as (t' & a' & IN & LE). destruct (Nat.eq_dec t' n) as [->|NE]; [destruct (arm_for_in tagged n) as [z Z]; [eauto|congruence]|].
        destruct (I1 _ _ IN) as (c & xs & x & ar & C1 & C2). destruct (GL c xs x t' ar n C1 C2 ltac:(lia)) as (c' & xs' & x' & ar' & C3 & C4). destruct (I2 _ _ _ _ _ C3 C4) as [z Z]. destruct (arm_for_in tagged n) as [w W]; [eauto|congruence].
      * specialize (FL y Y1). pose proof (proj1 (Forall_forall _ _) IH _ Y1) as IHy. cbn [snd] in IHy. pose proof (proj1 (Forall_forall _ _) S2 _ Y1) as Sy. cbn [snd] in Sy.
        rewrite (IHy cx ns env r b) by auto.
        assert (Y3 : elab (deeper 1 cx) y = Some b) by (rewrite (flat_elab r y (deeper 1 cx) cx FL eq_refl); auto).
        pose proof (IHy (deeper 1 cx) ns (env ++ [p]) r b TF (compat_deeper r cx ns env [p] CO) Y3 Sy) as Q. cbn [cx_cons deeper] in Q. rewrite Q.
        destruct CO as [LE _]. apply (flat_meaning _ r); auto; [|rewrite app_length; lia|lia]. intros m M. rewrite nth_error_app1 by lia. auto.
    + assert (N : nth_error al n = None) by (apply nth_error_None; rewrite (mapO_len _ _ _ E3), seq_length; auto). rewrite N. cbn [option_map].
      destruct (arm_for tagged n) as [a|] eqn:AF; [|reflexivity]. apply arm_for_some in AF. exfalso. assert (n < arm_count tagged) by (apply arm_count_spec; eauto). lia.
  - cbn [elab] in E. destruct (elab cx l) as [t1|] eqn:E1; [|discriminate]. destruct (elab cx i) as [t2|] eqn:E2; [|discriminate]. destruct (elab (deeper 2 cx) s) as [t3|] eqn:E3; [|discriminate]. injection E as <-. destruct S as (S1 & S2 & S3).
    cbn [eval meaning]. rewrite (IHl cx ns env r t1) by auto. destruct (meaning (cx_cons cx) ns env l) as [[| | |items]|]; auto. rewrite (IHi cx ns env r t2) by auto. destruct (meaning (cx_cons cx) ns env i) as [a|]; auto.
    generalize (Some a) as acc. clear a. induction items as [|x items IHn]; intros acc; [reflexivity|]. cbn [fold_left]. rewrite IHn. f_equal. destruct acc as [a|]; auto.
    apply (IHs (deeper 2 cx) ns (env ++ [a; x]) r t3); auto. apply (compat_deeper r cx ns env [a; x]). auto.
  - cbn [elab] in E. destruct (elab cx t) as [t1|] eqn:E1; [|discriminate]. injection E as <-. cbn [eval meaning]. rewrite (IH cx ns env r t1) by auto. reflexivity.
  - cbn [elab] in E. destruct (elab cx l) as [t1|] eqn:E1; [|discriminate]. destruct (elab cx r0) as [t2|] eqn:E2; [|discriminate]. injection E as <-. destruct S as [S1 S2].
    destruct op; cbn [eval meaning]; rewrite (IHl cx ns env r t1), (IHr cx ns env r t2) by auto; reflexivity.
  - cbn [elab] in E. destruct (elab cx t) as [t1|] eqn:E1; [|discriminate]. injection E as <-. rewrite eval_proj. cbn [meaning]. rewrite (IH cx ns env r t1) by auto. reflexivity.
Qed.
