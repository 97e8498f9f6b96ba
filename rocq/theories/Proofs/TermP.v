(** Terms compute what their rules say. *)
From Verif Require Export Spec.TermSpec.
From Verif Require Import Proofs.NodeEqP Base.Order.
Local Open Scope Z_scope.

Scheme computes_mut := Induction for computes Sort Prop
  with fields_mut := Induction for fields Sort Prop
  with folds_mut := Induction for folds Sort Prop
  with draws_mut := Induction for draws Sort Prop.
Combined Scheme computes_ind4 from computes_mut, fields_mut, folds_mut, draws_mut.

Definition build_of (env : list Value) : list Term -> option (list Value) :=
  fix build (fields : list Term) : option (list Value) :=
    match fields with
    | [] => Some []
    | f :: fields =>
        here <- (match f with
                 | TSpread inner => v <- eval inner env; match v with VTuple xs | VList xs => Some xs | _ => None end
                 | _ => v <- eval f env; Some [v]
                 end);
        rest <- build fields; Some (here ++ rest)
    end.
Lemma eval_tuple fs env : eval (TTuple fs) env = (xs <- build_of env fs; Some (VTuple xs)). Proof. reflexivity. Qed.
Lemma eval_list fs env : eval (TList fs) env = (xs <- build_of env fs; Some (VList xs)). Proof. reflexivity. Qed.
Definition fold_of (env : list Value) (step : Term) (a : Value) (items : list Value) : option Value :=
  fold_left (fun acc item => acc <- acc; eval step (env ++ [acc; item])) items (Some a).
Lemma fold_none env step items : fold_left (fun acc item => acc <- acc; eval step (env ++ [acc; item])) items None = None.
Proof. induction items; auto. Qed.
Definition mix_of (env : list Value) : list Term -> Z -> option Z :=
  fix mix (args : list Term) (acc : Z) : option Z :=
    match args with
    | [] => Some acc
    | a :: args => v <- eval a env; n <- as_int v; mix args (hash_u64 (Z.lxor acc (as_u64 n)))
    end.
Lemma eval_hash a args env : eval (THash (a :: args)) env =
  (b <- eval a env; bound <- as_int b; acc <- mix_of env args 0xcbf29ce484222325; Some (VInt (if 0 <? bound then Z.shiftr acc 1 mod bound else Z.shiftr acc 1))).
Proof. reflexivity. Qed.
Definition arm_of (env : list Value) (payload : Value) : list Term -> nat -> option (option Value) :=
  fix arm (arms : list Term) (n : nat) : option (option Value) :=
    match arms, n with
    | [], _ => None
    | a :: _, 0%nat => Some (eval a (env ++ [payload]))
    | _ :: arms, S n => arm arms n
    end.
Lemma eval_case s arms d env : eval (TCase s arms d) env =
  (s <- eval s env; match s with VVariant tag p => match arm_of env p arms (Z.to_nat tag) with Some r => r | None => match d with Some d => eval d env | None => None end end | _ => None end).
Proof. reflexivity. Qed.
Lemma arm_nth env p arms n : arm_of env p arms n = option_map (fun a => eval a (env ++ [p])) (nth_error arms n).
Proof. revert n; induction arms as [|a arms IH]; intros [|n]; simpl; auto. Qed.

Lemma truthy_yes v : truthy v = true <-> yes v.
Proof.
  unfold yes. destruct v as [n| | |]; simpl; try (split; [discriminate|intros (m & [=] & _)]).
  rewrite negb_true_iff, Z.eqb_neq. split; [eauto|intros (m & [= ->] & H); auto].
Qed.
Lemma truthy_no v : truthy v = false <-> ~ yes v.
Proof. rewrite <- truthy_yes. destruct (truthy v); split; congruence. Qed.
Lemma parts_match v xs : match v with VTuple xs | VList xs => Some xs | _ => None end = Some xs <-> parts v xs.
Proof. unfold parts. destruct v; split; intros H; try congruence; try (destruct H; congruence); [left|right]; congruence. Qed.
Lemma bool_iff (b b' : bool) : (b = true <-> b' = true) -> b = b'. Proof. destruct b, b'; intuition congruence. Qed.

Lemma bound_rev env k : bound_at env k = nth_error (rev env) k.
Proof.
  unfold bound_at. destruct (Nat.ltb_spec k (length env)) as [H|H]; [|symmetry; apply nth_error_None; rewrite rev_length; lia].
  destruct env as [|d env0]; [simpl in H; lia|]. set (env := d :: env0) in *.
  rewrite (nth_error_nth' env d) by lia. rewrite (nth_error_nth' (rev env) d) by (rewrite rev_length; lia). f_equal. rewrite rev_nth by lia. f_equal. lia.
Qed.
(** the short cut *)
Lemma eval_ref_eval t env v : eval_ref t env = Some v -> eval t env = Some v.
Proof. destruct t; try discriminate; cbn [eval_ref eval]; auto. destruct (eval_ref t env) as [w|]; [auto|discriminate]. Qed.
Lemma eval_proj t i env : eval (TProj t i) env = (v <- eval t env; match v with VTuple xs | VList xs => nth_error xs i | _ => None end).
Proof. cbn [eval]. destruct (eval_ref t env) as [p|] eqn:E; auto. rewrite (eval_ref_eval _ _ _ E). reflexivity. Qed.

Definition relates (op : BinOp) (x y : Value) : bool :=
  match op with
  | BEq => match value_cmp x y with Eq => true | _ => false end | BNe => match value_cmp x y with Eq => false | _ => true end
  | BLt => match value_cmp x y with Lt => true | _ => false end | BLe => match value_cmp x y with Gt => false | _ => true end
  | BGt => match value_cmp x y with Gt => true | _ => false end | BGe => match value_cmp x y with Lt => false | _ => true end
  | _ => false
  end.
Lemma relates_related op x y : compares op -> (relates op x y = true <-> related op x y).
Proof.
  assert (E : value_cmp x y = Eq <-> x = y) by apply value_cmp_eq. assert (A : value_cmp y x = CompOpp (value_cmp x y)) by apply value_cmp_antisym.
  destruct op; simpl; try tauto; intros _; unfold lt; cbn [cmp Ord_value]; rewrite ?A; destruct (value_cmp x y); simpl; intuition congruence.
Qed.
Lemma eval_binary_compare op x y : compares op -> eval_binary op x y = Some (answer (relates op x y)).
Proof. destruct op; simpl; try tauto; intros _; unfold answer; destruct (value_cmp x y); reflexivity. Qed.

Lemma computes_eval :
  (forall env t v, computes env t v -> eval t env = Some v) /\
  (forall env fs xs, fields env fs xs -> build_of env fs = Some xs) /\
  (forall env step a items v, folds env step a items v -> fold_of env step a items = Some v) /\
  (forall env args a h, draws env args a h -> mix_of env args a = Some h).
Proof.
  apply computes_ind4.
  - intros env i v H. exact H.
  - intros env k v H. simpl. rewrite bound_rev. exact H.
  - reflexivity.
  - intros env fs xs _ H. rewrite eval_tuple, H. reflexivity.
  - intros env fs xs _ H. rewrite eval_list, H. reflexivity.
  - intros env t i v xs x _ H P N. rewrite eval_proj, H. destruct P; subst v; exact N.
  - intros env g t n v _ Hg _ Ht. cbn [eval]. rewrite Hg, Ht. reflexivity.
  - intros env s arms d tag p arm v _ Hs Ha _ Hv. rewrite eval_case, Hs, arm_nth, Ha. simpl. exact Hv.
  - intros env s arms d tag p v _ Hs Ha _ Hv. rewrite eval_case, Hs, arm_nth, Ha. simpl. exact Hv.
  - intros env l i step items a v _ Hl _ Ha _ Hv. cbn [eval]. rewrite Hl, Ha. exact Hv.
  - intros env c t e x v _ Hc Y _ Hv. cbn [eval]. rewrite Hc. apply truthy_yes in Y. rewrite Y. exact Hv.
  - intros env c t e x v _ Hc Y _ Hv. cbn [eval]. rewrite Hc. apply truthy_no in Y. rewrite Y. exact Hv.
  - intros env t n _ H. cbn [eval]. rewrite H. reflexivity.
  - intros env t x b _ H B. cbn [eval]. rewrite H. cbn [eval_unary]. unfold answer. rewrite <- truthy_no in B. destruct (truthy x), b; intuition congruence.
  - intros env t g x b _ H B. cbn [eval]. rewrite H. cbn [eval_unary]. unfold answer. do 2 f_equal. destruct x as [n|xs|tag p|xs]; try (destruct b; [destruct (proj1 B eq_refl) as (q & [=])|reflexivity]).
    destruct (Z.eqb_spec tag g) as [->|Hn]; destruct b; auto; [symmetry in B; assert (false = true) by (apply B; eauto); discriminate|destruct (proj1 B eq_refl) as (q & [=]); contradiction].
  - intros env t x xs _ H P. cbn [eval]. rewrite H. cbn [eval_unary]. destruct P; subst x; reflexivity.
  - intros env l r m n _ Hl _ Hr. cbn [eval]. rewrite Hl, Hr. reflexivity.
  - intros env l r m n _ Hl _ Hr. cbn [eval]. rewrite Hl, Hr. reflexivity.
  - intros env l r m n _ Hl _ Hr. cbn [eval]. rewrite Hl, Hr. reflexivity.
  - intros env op l r x y b C _ Hl _ Hr B. assert (E : eval (TBinary op l r) env = (x <- eval l env; y <- eval r env; eval_binary op x y)) by (destruct op; try contradiction; reflexivity).
    rewrite E, Hl, Hr, eval_binary_compare by auto. rewrite <- (relates_related op x y C) in B. apply bool_iff in B. rewrite B. reflexivity.
  - intros env l r x _ Hl N. cbn [eval]. rewrite Hl. apply truthy_no in N. rewrite N. reflexivity.
  - intros env l r x y b _ Hl Y _ Hr B. cbn [eval]. rewrite Hl. apply truthy_yes in Y. rewrite Y, Hr. rewrite <- truthy_yes in B. apply bool_iff in B. rewrite B. reflexivity.
  - intros env l r x _ Hl Y. cbn [eval]. rewrite Hl. apply truthy_yes in Y. rewrite Y. reflexivity.
  - intros env l r x y b _ Hl N _ Hr B. cbn [eval]. rewrite Hl. apply truthy_no in N. rewrite N, Hr. rewrite <- truthy_yes in B. apply bool_iff in B. rewrite B. reflexivity.
  - intros env a args bound h _ Ha _ Hd. rewrite eval_hash, Ha. cbn [as_int]. rewrite Hd. rewrite Z.shiftr_div_pow2 by lia. reflexivity.
  - reflexivity.
  - intros env t v xs fs ys _ H P _ Hf. cbn [build_of]. fold (build_of env). rewrite H. apply parts_match in P. rewrite P, Hf. reflexivity.
  - intros env t v fs ys _ H _ Hf. cbn [build_of]. fold (build_of env). rewrite Hf. destruct t; try discriminate H; rewrite H; reflexivity.
  - reflexivity.
  - intros env step a x xs b v _ H _ Hf. unfold fold_of. cbn [fold_left]. rewrite H. exact Hf.
  - reflexivity.
  - intros env a args acc n h _ H _ Hd. cbn [mix_of]. fold (mix_of env). rewrite H. cbn [as_int]. exact Hd.
Qed.

Lemma fields_build fs : Forall (fun t => forall env v, eval t env = Some v -> computes env t v) fs -> Forall (fun t => forall u, t = TSpread u -> forall env v, eval u env = Some v -> computes env u v) fs ->
  forall env xs, build_of env fs = Some xs -> fields env fs xs.
Proof.
  induction fs as [|f fs IH]; intros F G env xs; [intros [= <-]; constructor|]. inversion F as [|? ? Hf Fs]; subst. inversion G as [|? ? Hg Gs]; subst. cbn [build_of]. fold (build_of env).
  assert (S : (exists u, f = TSpread u) \/ (match f with TSpread inner => v <- eval inner env; match v with VTuple xs | VList xs => Some xs | _ => None end | _ => v <- eval f env; Some [v] end) = (v <- eval f env; Some [v])).
  { destruct f; eauto. }
  destruct S as [(u & ->)| -> ].
  - destruct (eval u env) as [v|] eqn:Eu; [|discriminate]. destruct (match v with VTuple xs0 | VList xs0 => Some xs0 | _ => None end) as [ys|] eqn:Ep; [|discriminate].
    destruct (build_of env fs) as [zs|] eqn:Eb; [|discriminate]. intros [= <-]. apply parts_match in Ep. eapply FSpread; eauto.
  - destruct (eval f env) as [v|] eqn:Ev; [|discriminate]. destruct (build_of env fs) as [zs|] eqn:Eb; [|discriminate]. intros [= <-]. apply FOne; auto.
Qed.
Lemma eval_computes t : (forall env v, eval t env = Some v -> computes env t v) /\ (forall u, t = TSpread u -> forall env v, eval u env = Some v -> computes env u v).
Proof.
  induction t as [i|i|n|ts IH|ts IH|t (IH & _)|t i (IH & _)|t u (IH1 & _) (IH2 & _)|t ts d (IH1 & _) IH2 IH3|a b c (IH1 & _) (IH2 & _) (IH3 & _)|a b c (IH1 & _) (IH2 & _) (IH3 & _)|o t (IH & _)|o a b (IH1 & _) (IH2 & _)|ts IH] using term_ind';
    (split; [intros env v|intros u' E; try discriminate E]).
  - intros H. constructor. exact H.
  - intros H. constructor. rewrite <- bound_rev. exact H.
  - intros [= <-]. constructor.
  - rewrite eval_tuple. destruct (build_of env ts) as [xs|] eqn:E; [|discriminate]. intros [= <-]. constructor. eapply fields_build; [| |exact E]; eapply Forall_impl; try exact IH; simpl; tauto.
  - rewrite eval_list. destruct (build_of env ts) as [xs|] eqn:E; [|discriminate]. intros [= <-]. constructor. eapply fields_build; [| |exact E]; eapply Forall_impl; try exact IH; simpl; tauto.
  - discriminate.
  - injection E as <-. exact IH.
  - rewrite eval_proj. destruct (eval t env) as [w|] eqn:E; [|discriminate]. intros H. destruct w as [n|xs|g p|xs]; try discriminate; eapply CProj; [apply IH; eauto|left; eauto|exact H|apply IH; eauto|right; eauto|exact H].
  - cbn [eval]. destruct (eval t env) as [g|] eqn:Eg; [|discriminate]. destruct g as [n| | |]; try discriminate. cbn [as_int]. destruct (eval u env) as [w|] eqn:Eu; [|discriminate]. intros [= <-]. apply (CInject env t u n w); auto.
  - rewrite eval_case. destruct (eval t env) as [s|] eqn:Es; [|discriminate]. destruct s as [| |tag p|]; try discriminate. rewrite arm_nth. destruct (nth_error ts (Z.to_nat tag)) as [arm|] eqn:Ea; simpl.
    + intros H. rewrite Forall_forall in IH2. eapply CCase; eauto. apply IH2; auto. eapply nth_error_In; eauto.
    + destruct d as [d|]; [|discriminate]. intros H. eapply CDefault; eauto. exact (proj1 (IH3 d eq_refl) _ _ H).
  - cbn [eval]. destruct (eval a env) as [l|] eqn:El; [|discriminate]. destruct l as [| | |items]; try discriminate. destruct (eval b env) as [x|] eqn:Ei; [|discriminate]. intros H. eapply CFold; eauto.
    clear El Ei. revert x H. induction items as [|y items IHi]; intros x; cbn [fold_left]; [intros [= ->]; constructor|]. destruct (eval c (env ++ [x; y])) as [z|] eqn:E; [|rewrite fold_none; discriminate]. intros H. eapply FoldStep; eauto.
  - cbn [eval]. destruct (eval a env) as [x|] eqn:Ec; [|discriminate]. destruct (truthy x) eqn:Et; intros H.
    + apply truthy_yes in Et. eapply CThen; eauto.
    + apply truthy_no in Et. eapply CElse; eauto.
  - cbn [eval]. destruct (eval t env) as [x|] eqn:Ex; [|discriminate]. destruct o as [| |g|]; cbn [eval_unary].
    + destruct x as [n| | |]; try discriminate. intros [= <-]. constructor. auto.
    + intros [= <-]. replace (VInt (if truthy x then 0 else 1)) with (answer (negb (truthy x))) by (unfold answer; destruct (truthy x); reflexivity). eapply CNot; eauto. rewrite negb_true_iff. apply truthy_no.
    + intros [= <-]. set (b := match x with VVariant tag _ => tag =? g | _ => false end). replace (VInt _) with (answer b) by (unfold answer, b; destruct x; reflexivity).
      eapply CIsTag; eauto. unfold b. destruct x as [n|xs|tag p|xs]; try (split; [discriminate|intros (q & [=])]). rewrite Z.eqb_eq. split; [intros ->; eauto|intros (q & [= -> _]); auto].
    + intros H. destruct x as [|xs| |xs]; try discriminate; injection H as <-; (eapply CLen; [apply IH; eauto|]); [left|right]; reflexivity.
  - assert (K : compares o \/ o = BAdd \/ o = BSub \/ o = BMul \/ o = BAnd \/ o = BOr) by (destruct o; simpl; auto 9). destruct K as [C|[-> |[-> |[-> |[-> | ->]]]]].
    + assert (E : eval (TBinary o a b) env = (x <- eval a env; y <- eval b env; eval_binary o x y)) by (destruct o; try contradiction; reflexivity). rewrite E.
      destruct (eval a env) as [x|] eqn:Ea; [|discriminate]. destruct (eval b env) as [y|] eqn:Eb; [|discriminate]. rewrite eval_binary_compare by auto. intros [= <-]. eapply CCompare; eauto. apply relates_related; auto.
    + cbn [eval]. destruct (eval a env) as [x|] eqn:Ea; [|discriminate]. destruct (eval b env) as [y|] eqn:Eb; [|discriminate]. cbn [eval_binary]. destruct x; try discriminate. destruct y; try discriminate. intros [= <-]. constructor; auto.
    + cbn [eval]. destruct (eval a env) as [x|] eqn:Ea; [|discriminate]. destruct (eval b env) as [y|] eqn:Eb; [|discriminate]. cbn [eval_binary]. destruct x; try discriminate. destruct y; try discriminate. intros [= <-]. constructor; auto.
    + cbn [eval]. destruct (eval a env) as [x|] eqn:Ea; [|discriminate]. destruct (eval b env) as [y|] eqn:Eb; [|discriminate]. cbn [eval_binary]. destruct x; try discriminate. destruct y; try discriminate. intros [= <-]. constructor; auto.
    + cbn [eval]. destruct (eval a env) as [x|] eqn:Ea; [|discriminate]. destruct (truthy x) eqn:Ex.
      * destruct (eval b env) as [y|] eqn:Eb; [|discriminate]. intros [= <-]. apply truthy_yes in Ex. eapply (CAnd env a b x y (truthy y)); eauto. apply truthy_yes.
      * intros [= <-]. apply truthy_no in Ex. eapply (CAndNo env a b x); eauto.
    + cbn [eval]. destruct (eval a env) as [x|] eqn:Ea; [|discriminate]. destruct (truthy x) eqn:Ex.
      * intros [= <-]. apply truthy_yes in Ex. eapply (COrYes env a b x); eauto.
      * destruct (eval b env) as [y|] eqn:Eb; [|discriminate]. intros [= <-]. apply truthy_no in Ex. eapply (COr env a b x y (truthy y)); eauto. apply truthy_yes.
  - destruct ts as [|a args]; [discriminate|]. rewrite eval_hash. inversion IH as [|? ? (Ha & _) IHs]; subst. destruct (eval a env) as [b|] eqn:Eb; [|discriminate]. destruct b as [bound| | |]; try discriminate. cbn [as_int].
    destruct (mix_of env args _) as [h|] eqn:Eh; [|discriminate]. rewrite !Z.shiftr_div_pow2 by lia. intros [= <-]. apply (CHash env a args bound h); auto.
    clear -IHs Eh. revert Eh. generalize 0xcbf29ce484222325. induction IHs as [|x args (Hx & _) _ IH]; intros acc; cbn [mix_of]; fold (mix_of env); [intros [= ->]; constructor|].
    destruct (eval x env) as [y|] eqn:Ey; [|discriminate]. destruct y as [n| | |]; try discriminate. cbn [as_int]. intros E. eapply DrawStep; eauto.
Qed.
