From Coq Require Import String.
From Verif Require Export Spec.PipeSpec.
From Coq Require Import Lia.
Local Open Scope nat_scope.

Scheme reads_mind := Induction for reads Sort Prop
with reads_args_mind := Induction for reads_args Sort Prop
with reads_arms_mind := Induction for reads_arms Sort Prop.
Combined Scheme reads_all from reads_mind, reads_args_mind, reads_arms_mind.

Lemma elab_call cx f args : elab cx (PCall f args) = (ts <- elab_args cx args; call cx f ts).
Proof.
  cbn [elab]. match goal with |- match ?a with _ => _ end = match ?b with _ => _ end => assert (E : a = b) end; [|rewrite E; auto].
  induction args as [|x l IH]; simpl; auto. destruct (elab cx x); auto. rewrite IH. auto.
Qed.
Lemma elab_case cx s arms : elab cx (PCase s arms) = (t <- elab cx s; ' (tagged, d) <- elab_arms cx arms [] None; make_case t tagged d).
Proof.
  cbn [elab]. destruct (elab cx s); auto.
  match goal with |- match ?f arms [] None with _ => _ end = _ => assert (E : forall l g d, f l g d = elab_arms cx l g d) end; [|rewrite E; auto].
  induction l as [|[[c xs|] x] l IH]; intros g d; auto.
  - cbn [elab_arms]. destruct (lookup (cx_cons cx) c) as [[tag arity]|]; auto. destruct (length xs =? arity); auto. destruct (elab _ x); auto.
  - cbn [elab_arms]. destruct (elab cx x); auto.
Qed.
Lemma elab_args_app cx a b : elab_args cx (a ++ b) = (x <- elab_args cx a; y <- elab_args cx b; Some (x ++ y)).
Proof. induction a as [|t a IH]; simpl; [destruct (elab_args cx b); auto|]. destruct (elab cx t); auto. rewrite IH. destruct (elab_args cx a); auto. destruct (elab_args cx b); auto. Qed.

(** ** Where a term of a level ends *)
Definition stops (l : level) (ts : list Tok) : Prop :=
  match ts with
  | [] => False
  | k :: _ =>
      match l with
      | LPrimary => k <> KLParen
      | LUnary => k <> KLParen /\ k <> KLBracket
      | LMul => k <> KLParen /\ k <> KLBracket
      | LAdd => k <> KLParen /\ k <> KLBracket /\ k <> KStar
      | LCmp => k <> KLParen /\ k <> KLBracket /\ k <> KStar /\ add_op k = None /\ cmp_op k = None
      | LLogic => k <> KLParen /\ k <> KLBracket /\ k <> KStar /\ add_op k = None /\ cmp_op k = None
      end
  end.

Definition ended (ts : list Tok) : Prop :=
  match ts with [] => False | k :: _ => k <> KLParen /\ k <> KLBracket /\ k <> KStar /\ add_op k = None /\ cmp_op k = None /\ k <> KAndAnd end.
Lemma ends_ended ts : ends ts -> ended ts.
Proof. destruct ts as [|k ts]; auto. simpl. intros N. destruct k; simpl; repeat split; try discriminate; destruct N; simpl; auto 20. Qed.
Lemma comparisons_op k op : In (k, op) comparisons <-> cmp_op k = Some op.
Proof. unfold comparisons. split; [simpl; intros H; repeat destruct H as [H|H]; try contradiction; injection H as <- <-; reflexivity|]. destruct k; simpl; intros H; try discriminate H; injection H as <-; auto 10. Qed.
Lemma sums_op k op : In (k, op) sums <-> add_op k = Some op.
Proof. unfold sums. split; [simpl; intros H; repeat destruct H as [H|H]; try contradiction; injection H as <- <-; reflexivity|]. destruct k; simpl; intros H; try discriminate H; injection H as <-; auto. Qed.

(** What the parser makes of a text of a level, followed by something else. *)
Definition parsed (l : level) (ts : list Tok) (s : PT) : Prop :=
  forall cx t n rest, elab cx s = Some t -> stops l rest ->
  match l with
  | LPrimary => n + 5 >= 10 * length ts -> p_primary n cx (ts ++ rest) = projs t rest
  | LUnary => n + 4 >= 10 * length ts -> p_unary n cx (ts ++ rest) = Some (t, rest)
  | LMul => n + 3 >= 10 * length ts -> exists m, m >= 1 /\ m + 10 * length ts >= n /\ p_mul n cx (ts ++ rest) = mul_loop m cx t rest
  | LAdd => n + 2 >= 10 * length ts -> exists m, m >= 1 /\ m + 10 * length ts >= n /\ p_add n cx (ts ++ rest) = add_loop m cx t rest
  | LCmp => n + 1 >= 10 * length ts -> p_cmp n cx (ts ++ rest) = Some (t, rest)
  | LLogic => n >= 10 * length ts -> exists m, m >= 1 /\ m + 10 * length ts >= n /\ p_logic n cx (ts ++ rest) = logic_loop m cx t rest
  end.
Lemma reads_nonempty : (forall l ts s, reads l ts s -> 1 <= length ts) /\ (forall ts a, reads_args ts a -> True) /\ (forall ts a, reads_arms ts a -> True).
Proof. apply reads_all; intros; auto; simpl in *; rewrite ?app_length in *; simpl; lia. Qed.
Lemma whole ts s cx t n rest : parsed LLogic ts s -> elab cx s = Some t -> ended rest -> n >= 10 * length ts + 1 -> p_logic n cx (ts ++ rest) = Some (t, rest).
Proof.
  intros P E R L. destruct rest as [|k rest]; [destruct R|]. destruct R as (R1 & R2 & R3 & R4 & R5 & R6). destruct (P cx t n (k :: rest) E) as (m & M1 & M & ->); [simpl; auto|lia|].
  destruct m as [|m]; [lia|]. cbn [logic_loop]. destruct k; auto; contradiction.
Qed.
Lemma mul_stop m cx t k rest : k <> KStar -> m >= 1 -> mul_loop m cx t (k :: rest) = Some (t, k :: rest).
Proof. intros N L. destruct m; [lia|]. cbn [mul_loop]. destruct k; auto; contradiction. Qed.
Lemma add_stop m cx t k rest : add_op k = None -> m >= 1 -> add_loop m cx t (k :: rest) = Some (t, k :: rest).
Proof. intros N L. destruct m; [lia|]. cbn [add_loop]. rewrite N. auto. Qed.
Lemma projs_stop t k rest : k <> KLBracket -> projs t (k :: rest) = Some (t, k :: rest).
Proof. intros N. cbn [projs]. destruct k; auto; contradiction. Qed.
Lemma names_read xs ts : names (separated xs ++ KRParen :: ts) = Some (xs, ts).
Proof.
  destruct xs as [|x xs]; [reflexivity|]. cbn [separated names app].
  assert (E : more_names (flat_map (fun x => [KComma; KIdent x]) xs ++ KRParen :: ts) = Some (xs, ts)); [|rewrite E; auto].
  induction xs as [|y xs IH]; [reflexivity|]. cbn [flat_map app more_names]. rewrite IH. auto.
Qed.

Definition args_parsed (ts : list Tok) (args : list PT) : Prop :=
  forall cx us n rest, elab_args cx args = Some us -> args <> [] -> (exists r, rest = KRParen :: r \/ rest = KComma :: r) -> n >= 10 * length ts + 2 ->
  exists m, m + 10 * length ts + 1 >= n /\ (' (a, ts) <- p_logic n cx (ts ++ rest); args_loop n cx [a] ts) = args_loop m cx us rest.
Definition arms_parsed (ts : list Tok) (arms : list (Pattern * PT)) : Prop :=
  forall cx g d g' d' n rest, elab_arms cx arms g d = Some (g', d') -> n >= 10 * length ts + 1 -> case_loop n cx g d (ts ++ KRBrace :: rest) = Some (g', d', rest).
Lemma cmp_ends k op : cmp_op k = Some op -> k <> KLParen /\ k <> KLBracket /\ k <> KStar /\ add_op k = None.
Proof. destruct k; simpl; intros H; try discriminate H; repeat split; auto; discriminate. Qed.
Lemma add_ends k op : add_op k = Some op -> k <> KLParen /\ k <> KLBracket /\ k <> KStar /\ cmp_op k = None.
Proof. destruct k; simpl; intros H; try discriminate H; repeat split; auto; discriminate. Qed.
(** A primary text begins with neither a minus sign nor the end of anything. *)
Lemma primary_head ts s : reads LPrimary ts s -> exists k r, ts = k :: r /\ k <> KMinus /\ k <> KRParen.
Proof.
  remember LPrimary as l. induction 1; try discriminate; try (eexists _, _; split; [reflexivity|split; discriminate]).
  destruct (IHreads Heql) as (k & r & -> & N & M). eexists _, _. split; [reflexivity|auto].
Qed.
Lemma reads_head l ts s : reads l ts s -> exists k r, ts = k :: r /\ k <> KRParen.
Proof.
  induction 1; try (eexists _, _; split; [reflexivity|discriminate]); auto;
    try (destruct IHreads1 as (k0 & r0 & -> & N0); eexists _, _; split; [reflexivity|auto]).
  destruct IHreads as (k0 & r0 & -> & N0). eexists _, _. split; [reflexivity|auto].
Qed.

Lemma parses : (forall l ts s, reads l ts s -> parsed l ts s) /\ (forall ts args, reads_args ts args -> args_parsed ts args) /\ (forall ts arms, reads_arms ts arms -> arms_parsed ts arms).
Proof.
  apply reads_all; try (intros; exact I); unfold parsed.
  - (* g_logic *) intros ts t R IH cx u n rest E S L. pose proof (proj1 reads_nonempty _ _ _ R). destruct n as [|n]; [lia|]. exists n. split; [lia|]. split; [lia|]. cbn [p_logic].
    rewrite (IH cx u n rest E); [auto|exact S|lia].
  - (* g_and *) intros a x b y R1 IH1 R2 IH2 cx u n rest E S L. cbn [elab] in E. destruct (elab cx x) as [t1|] eqn:E1; [|discriminate]. destruct (elab cx y) as [t2|] eqn:E2; [|discriminate]. injection E as <-.
    rewrite app_length in *. cbn [length] in *. destruct (IH1 cx t1 n (KAndAnd :: b ++ rest) E1) as (m & M1 & M & Q); [simpl; repeat split; auto; discriminate|lia|].
    rewrite <- app_assoc. cbn [app]. rewrite Q. destruct m as [|m]; [lia|]. exists m. split; [lia|]. split; [lia|]. cbn [logic_loop]. rewrite (IH2 cx t2 m rest E2); [auto|exact S|lia].
  - (* g_one *) intros ts t R IH cx u n rest E S L. pose proof (proj1 reads_nonempty _ _ _ R). destruct n as [|n]; [lia|]. cbn [p_cmp]. destruct rest as [|k rest]; [destruct S|]. destruct S as (S1 & S2 & S3 & S4 & S5).
    destruct (IH cx u n (k :: rest) E) as (m & M1 & M & ->); [simpl; auto|lia|]. rewrite add_stop by (auto; lia). rewrite S5. auto.
  - (* g_cmp *) intros a x k op b y R1 IH1 K R2 IH2 cx u n rest E S L. apply comparisons_op in K. cbn [elab] in E. destruct (elab cx x) as [t1|] eqn:E1; [|discriminate]. destruct (elab cx y) as [t2|] eqn:E2; [|discriminate]. injection E as <-.
    pose proof (proj1 reads_nonempty _ _ _ R1). pose proof (proj1 reads_nonempty _ _ _ R2). rewrite app_length in *. cbn [length] in *. destruct n as [|n]; [lia|]. destruct (cmp_ends _ _ K) as (K1 & K2 & K3 & K4). rewrite <- app_assoc. cbn [p_cmp app].
    destruct (IH1 cx t1 n (k :: b ++ rest) E1) as (m & M1 & M & ->); [simpl; auto|lia|]. rewrite add_stop by (auto; lia). rewrite K.
    destruct rest as [|k' rest]; [destruct S|]. destruct S as (S1 & S2 & S3 & S4 & S5).
    destruct (IH2 cx t2 n (k' :: rest) E2) as (m' & M1' & M' & ->); [simpl; auto|lia|]. rewrite add_stop by (auto; lia). auto.
  - (* g_sum *) intros ts t R IH cx u n rest E S L. pose proof (proj1 reads_nonempty _ _ _ R). destruct n as [|n]; [lia|]. exists n. split; [lia|]. split; [lia|]. cbn [p_add]. destruct rest as [|k rest]; [destruct S|]. destruct S as (S1 & S2 & S3).
    destruct (IH cx u n (k :: rest) E) as (m & M1 & M & ->); [simpl; auto|lia|]. rewrite mul_stop by (auto; lia). auto.
  - (* g_add *) intros a x k op b y R1 IH1 K R2 IH2 cx u n rest E S L. apply sums_op in K. cbn [elab] in E. destruct (elab cx x) as [t1|] eqn:E1; [|discriminate]. destruct (elab cx y) as [t2|] eqn:E2; [|discriminate]. injection E as <-.
    pose proof (proj1 reads_nonempty _ _ _ R2). rewrite app_length in *. cbn [length] in *. destruct (add_ends _ _ K) as (K1 & K2 & K3 & K4). rewrite <- app_assoc. cbn [app].
    destruct (IH1 cx t1 n (k :: b ++ rest) E1) as (m & M1 & M & ->); [simpl; auto|lia|]. destruct m as [|m]; [lia|]. exists m. split; [lia|]. split; [lia|]. cbn [add_loop]. rewrite K.
    destruct rest as [|k' rest]; [destruct S|]. destruct S as (S1 & S2 & S3).
    destruct (IH2 cx t2 m (k' :: rest) E2) as (m' & M1' & M' & ->); [simpl; auto|lia|]. rewrite mul_stop by (auto; lia). auto.
  - (* g_product *) intros ts t R IH cx u n rest E S L. pose proof (proj1 reads_nonempty _ _ _ R). destruct n as [|n]; [lia|]. exists n. split; [lia|]. split; [lia|]. cbn [p_mul]. rewrite (IH cx u n rest E); [auto|exact S|lia].
  - (* g_mul *) intros a x b y R1 IH1 R2 IH2 cx u n rest E S L. cbn [elab] in E. destruct (elab cx x) as [t1|] eqn:E1; [|discriminate]. destruct (elab cx y) as [t2|] eqn:E2; [|discriminate]. injection E as <-.
    rewrite app_length in *. cbn [length] in *. rewrite <- app_assoc. cbn [app]. destruct (IH1 cx t1 n (KStar :: b ++ rest) E1) as (m & M1 & M & ->); [simpl; split; discriminate|lia|].
    destruct m as [|m]; [lia|]. exists m. split; [lia|]. split; [lia|]. cbn [mul_loop]. rewrite (IH2 cx t2 m rest E2); [auto|exact S|lia].
  - (* g_unary *) intros ts t R IH cx u n rest E S L. pose proof (proj1 reads_nonempty _ _ _ R). destruct n as [|n]; [lia|]. cbn [p_unary]. destruct rest as [|k rest]; [destruct S|]. destruct S as (S1 & S2).
    destruct (primary_head _ _ R) as (k0 & r0 & E0 & N0 & _). assert (Q : p_primary n cx (ts ++ k :: rest) = projs u (k :: rest)) by (apply IH; [auto|simpl; auto|lia]).
    rewrite projs_stop in Q by auto. rewrite <- Q. rewrite E0. cbn [app]. destruct k0; auto; contradiction.
  - (* g_neg *) intros ts t R IH cx u n rest E S L. cbn [elab] in E. destruct (elab cx t) as [t1|] eqn:E1; [|discriminate]. injection E as <-. cbn [length] in L. pose proof (proj1 reads_nonempty _ _ _ R). destruct n as [|n]; [lia|].
    cbn [p_unary app]. rewrite (IH cx t1 n rest E1); [auto|exact S|lia].
  - (* g_row *) intros i cx u n rest E S L. injection E as <-. cbn [length] in L. destruct n as [|n]; [lia|]. reflexivity.
  - intros i cx u n rest E S L. injection E as <-. cbn [length] in L. destruct n as [|n]; [lia|]. reflexivity.
  - intros i cx u n rest E S L. injection E as <-. cbn [length] in L. destruct n as [|n]; [lia|]. reflexivity.
  - (* g_paren *) intros ts t R IH cx u n rest E S L. cbn [length] in L. rewrite app_length in L. cbn [length] in L. destruct n as [|n]; [lia|]. cbn [p_primary app]. rewrite <- app_assoc. cbn [app].
    rewrite (whole ts t cx u n (KRParen :: rest) IH E); [auto|simpl; repeat split; auto; discriminate|lia].
  - (* g_name *) intros x cx u n rest E S L. cbn [elab] in E. cbn [length] in L. destruct n as [|n]; [lia|]. cbn [p_primary app]. destruct rest as [|k rest]; [destruct S|]. simpl in S. destruct k; try (rewrite E; reflexivity). contradiction.
  - (* g_call *) intros ts f args R IH cx u n rest E S L. rewrite elab_call in E. destruct (elab_args cx args) as [us|] eqn:E1; [|discriminate]. cbn [length] in L. rewrite app_length in L. cbn [length] in L. destruct n as [|n]; [lia|].
    cbn [p_primary app]. rewrite <- app_assoc. cbn [app].
    destruct args as [|a0 args].
    + injection E1 as <-. inversion R as [Q| |a args b t _ _ _ Q1 Q2]; subst; [|destruct args; discriminate Q2]. cbn [app]. rewrite E. auto.
    + destruct (IH cx us n (KRParen :: rest) E1 ltac:(discriminate) (ex_intro _ rest (or_introl eq_refl)) ltac:(lia)) as (m & M & Q).
      assert (H : exists k r, ts = k :: r /\ k <> KRParen).
      { clear - R. remember (a0 :: args) as l. assert (l <> []) by (subst; discriminate). clear Heql. induction R; [contradiction|eapply reads_head; eauto|]. destruct (IHR ltac:(auto)) as (k & r & -> & N). eexists _, _. split; [reflexivity|auto]. }
      destruct H as (k & r & -> & N). cbn [app] in *.
      assert (X : forall A (x y : option A), match k with KRParen => x | _ => y end = y) by (intros; destruct k; auto; contradiction).
      destruct m as [|m]; [lia|]. cbn [args_loop] in Q.
      destruct k; try contradiction;
        (destruct (p_logic n cx (_ :: r ++ KRParen :: rest)) as [[a ts']|]; [|discriminate Q]; rewrite Q, E; reflexivity).
  - (* g_fold *) intros a l b i c s R1 IH1 R2 IH2 R3 IH3 cx u n rest E S L. cbn [elab] in E. destruct (elab cx l) as [t1|] eqn:E1; [|discriminate]. destruct (elab cx i) as [t2|] eqn:E2; [|discriminate].
    destruct (elab (deeper 2 cx) s) as [t3|] eqn:E3; [|discriminate]. injection E as <-. cbn [length] in L. rewrite ?app_length in L. cbn [length] in L. rewrite ?app_length in L. cbn [length] in L. rewrite ?app_length in L. cbn [length] in L. destruct n as [|n]; [lia|].
    cbn [p_primary app]. rewrite <- app_assoc. cbn [app]. rewrite (whole a l cx t1 n _ IH1 E1); [|simpl; repeat split; auto; discriminate|lia].
    rewrite <- app_assoc. cbn [app]. rewrite (whole b i cx t2 n _ IH2 E2); [|simpl; repeat split; auto; discriminate|lia].
    rewrite <- app_assoc. cbn [app]. rewrite (whole c s (deeper 2 cx) t3 n _ IH3 E3); [|simpl; repeat split; auto; discriminate|lia]. auto.
  - (* g_case *) intros a s b arms R1 IH1 R2 IH2 cx u n rest E S L. rewrite elab_case in E. destruct (elab cx s) as [t1|] eqn:E1; [|discriminate]. destruct (elab_arms cx arms [] None) as [[g d]|] eqn:E2; [|discriminate].
    cbn [length] in L. rewrite ?app_length in L. cbn [length] in L. rewrite ?app_length in L. cbn [length] in L. destruct n as [|n]; [lia|].
    cbn [p_primary app]. rewrite <- app_assoc. cbn [app]. rewrite (whole a s cx t1 n _ IH1 E1); [|simpl; repeat split; auto; discriminate|lia].
    rewrite <- app_assoc. cbn [app]. rewrite (IH2 cx [] None g d n rest E2) by lia. cbn [fst snd]. rewrite E. auto.
  - (* g_proj *) intros ts t i R IH cx u n rest E S L. cbn [elab] in E. destruct (elab cx t) as [t1|] eqn:E1; [|discriminate]. injection E as <-. rewrite app_length in L. cbn [length] in L. rewrite <- app_assoc. cbn [app].
    rewrite (IH cx t1 n (KLBracket :: KInt i :: KRBracket :: rest) E1); [reflexivity|discriminate|lia].
  - (* args *) intros cx us n rest E N. contradiction.
  - intros ts t R IH cx us n rest E N S L. cbn [elab_args] in E. destruct (elab cx t) as [u|] eqn:E1; [|discriminate]. injection E as <-. exists n. split; [lia|].
    rewrite (whole ts t cx u n rest IH E1); [auto| |lia]. destruct S as [r [-> | ->]]; simpl; repeat split; auto; discriminate.
  - intros a args b t R1 IH1 NE R2 IH2 cx us n rest E N S L. rewrite elab_args_app in E. destruct (elab_args cx args) as [u1|] eqn:E1; [|discriminate]. cbn [elab_args] in E. destruct (elab cx t) as [u|] eqn:E2; [|discriminate]. injection E as <-.
    rewrite app_length in *. cbn [length] in *. rewrite <- app_assoc. cbn [app].
    destruct (IH1 cx u1 n (KComma :: b ++ rest) E1 NE (ex_intro _ _ (or_intror eq_refl)) ltac:(lia)) as (m & M & Q). rewrite Q. destruct m as [|m]; [lia|]. exists m. split; [lia|]. cbn [args_loop].
    rewrite (whole b t cx u m rest IH2 E2); [auto| |lia]. destruct S as [r [-> | ->]]; simpl; repeat split; auto; discriminate.
  - (* arms *) intros cx g d g' d' n rest E L. cbn [elab_arms] in E. injection E as <- <-. destruct n as [|n]; [cbn in L; lia|]. reflexivity.
  - intros p ts t sep rest arms R IH SEP R2 IH2 NU cx g d g' d' n rst E L.
    assert (T : forall cx' u m, elab cx' t = Some u -> m >= 10 * length ts + 1 -> p_logic m cx' (ts ++ sep ++ rest ++ KRBrace :: rst) = Some (u, sep ++ rest ++ KRBrace :: rst)).
    { intros cx' u m E1 L1. apply (whole ts t cx' u m _ IH E1); [|lia]. destruct SEP as [-> | ->]; [|simpl; repeat split; auto; discriminate]. cbn [app].
      inversion R2; subst; [simpl; repeat split; auto; discriminate|]. destruct p0; simpl; repeat split; auto; discriminate. }
    assert (X : match sep ++ rest ++ KRBrace :: rst with KComma :: ts => ts | _ => sep ++ rest ++ KRBrace :: rst end = rest ++ KRBrace :: rst).
    { destruct SEP as [-> | ->]; [|reflexivity]. cbn [app]. inversion R2; subst; [reflexivity|]. destruct p0; reflexivity. }
    assert (LS : length sep <= 1) by (destruct SEP as [-> | ->]; simpl; lia).
    rewrite app_length in L. cbn [length] in L. rewrite !app_length in L. destruct n as [|n]; [lia|]. destruct p as [c xs|].
    + cbn [elab_arms] in E. destruct (lookup (cx_cons cx) c) as [[tag arity]|] eqn:E0; [|discriminate]. destruct (length xs =? arity) eqn:E1; [|discriminate]. destruct (elab (bind_names xs cx) t) as [u|] eqn:E2; [|discriminate].
      cbn [length] in L. rewrite ?app_length in L. cbn [length] in L. cbn [case_loop app]. destruct (String.eqb_spec c "_") as [->|_]; [destruct (NU _ _ eq_refl eq_refl)|]. rewrite E0.
      repeat (rewrite <- app_assoc; cbn [app]). rewrite names_read, E1. cbn [app]. rewrite (T _ _ n E2) by lia. rewrite X. apply IH2; [auto|lia].
    + cbn [elab_arms] in E. destruct (elab cx t) as [u|] eqn:E2; [|discriminate]. cbn [length] in L. cbn [case_loop app]. rewrite String.eqb_refl.
      repeat (rewrite <- app_assoc; cbn [app]). rewrite (T _ _ n E2) by lia. rewrite X. apply IH2; [auto|lia].
Qed.

(** ** What the parser accepts is of the grammar *)
Definition reads_here (l : level) (p : Ctx -> list Tok -> option (Term * list Tok)) : Prop :=
  forall cx ts t r, p cx ts = Some (t, r) -> exists u s, ts = u ++ r /\ reads l u s /\ elab cx s = Some t.
Definition extends (l : level) (p : Ctx -> Term -> list Tok -> option (Term * list Tok)) : Prop :=
  forall cx t0 ts t r u0 s0, reads l u0 s0 -> elab cx s0 = Some t0 -> p cx t0 ts = Some (t, r) -> exists u s, u0 ++ ts = u ++ r /\ reads l u s /\ elab cx s = Some t.
Lemma more_names_inv ts : forall xs r, more_names ts = Some (xs, r) -> ts = flat_map (fun x => [KComma; KIdent x]) xs ++ KRParen :: r.
Proof.
  induction ts as [ts IH] using (well_founded_induction (Wf_nat.well_founded_ltof _ (@length Tok))). intros xs r H. unfold ltof in IH.
  destruct ts as [|k ts]; [discriminate|]. destruct k; try discriminate.
  - injection H as <- <-. reflexivity.
  - destruct ts as [|k ts]; [discriminate|]. destruct k; try discriminate. cbn [more_names] in H. destruct (more_names ts) as [[ys r']|] eqn:E; [|discriminate]. injection H as <- <-.
    cbn [flat_map app]. rewrite <- (IH ts) with (xs := ys); auto. simpl. lia.
Qed.
Lemma names_inv ts xs r : names ts = Some (xs, r) -> ts = separated xs ++ KRParen :: r.
Proof.
  destruct ts as [|k ts]; [discriminate|]. destruct k; try discriminate.
  - cbn [names]. destruct (more_names ts) as [[ys r']|] eqn:E; [|discriminate]. intros H. injection H as <- <-. cbn [separated app]. rewrite <- (more_names_inv _ _ _ E). auto.
  - intros H. injection H as <- <-. reflexivity.
Qed.
Lemma projs_inv cx ts : forall t0 t r u0 s0, reads LPrimary u0 s0 -> elab cx s0 = Some t0 -> projs t0 ts = Some (t, r) ->
  exists u s, u0 ++ ts = u ++ r /\ reads LPrimary u s /\ elab cx s = Some t.
Proof.
  induction ts as [ts IH] using (well_founded_induction (Wf_nat.well_founded_ltof _ (@length Tok))). intros t0 t r u0 s0 R E H. unfold ltof in IH.
  destruct ts as [|k ts]; [discriminate|]. destruct k; try (cbn [projs] in H; injection H as <- <-; exists u0, s0; auto; fail).
  destruct ts as [|k ts]; [discriminate|]. destruct k; try discriminate. destruct ts as [|k ts]; [discriminate|]. destruct k; try discriminate. cbn [projs] in H.
  destruct (IH ts ltac:(simpl; lia) (TProj t0 n) t r (u0 ++ [KLBracket; KInt n; KRBracket]) (PProj s0 n)) as (u & s & A & B & C); auto; [apply g_proj; auto|cbn [elab]; rewrite E; auto|].
  exists u, s. split; auto. rewrite <- A, <- app_assoc. auto.
Qed.

Definition sound (n : nat) : Prop :=
  reads_here LLogic (p_logic n) /\ reads_here LCmp (p_cmp n) /\ reads_here LAdd (p_add n) /\ reads_here LMul (p_mul n) /\ reads_here LUnary (p_unary n) /\
  (forall cx ts t r, hd KEof ts <> KMinus -> p_primary n cx ts = Some (t, r) -> exists u s, ts = u ++ r /\ reads LPrimary u s /\ elab cx s = Some t) /\
  extends LLogic (logic_loop n) /\ extends LAdd (add_loop n) /\ extends LMul (mul_loop n) /\
  (forall cx us ts us' r u0 ss0, reads_args u0 ss0 -> ss0 <> [] -> elab_args cx ss0 = Some us -> args_loop n cx us ts = Some (us', r) ->
    exists u ss, u0 ++ ts = u ++ KRParen :: r /\ reads_args u ss /\ elab_args cx ss = Some us') /\
  (forall cx g d ts g' d' r, case_loop n cx g d ts = Some (g', d', r) -> exists u arms, ts = u ++ KRBrace :: r /\ reads_arms u arms /\ elab_arms cx arms g d = Some (g', d')).

Lemma comma_inv ts : exists sep, (sep = [] \/ sep = [KComma]) /\ ts = sep ++ (match ts with KComma :: ts => ts | _ => ts end).
Proof. destruct ts as [|k ts]; [exists []; auto|]. destruct k; try (exists []; auto; fail). exists [KComma]. auto. Qed.

Lemma parser_sound n : sound n.
Proof.
  induction n as [|n IH]; [unfold sound, reads_here, extends; repeat match goal with |- _ /\ _ => split end; intros; discriminate|].
  destruct IH as (LOG & CMP & ADD & MUL & UN & PR & LL & AL & ML & ARGS & ARMS). unfold sound. repeat match goal with |- _ /\ _ => split end.
  - intros cx ts t r H. cbn [p_logic] in H. destruct (p_cmp n cx ts) as [[l ts1]|] eqn:E; [|discriminate]. apply CMP in E. destruct E as (u & s & -> & R & E). eapply LL; eauto. constructor. auto.
  - intros cx ts t r H. cbn [p_cmp] in H. destruct (p_add n cx ts) as [[l ts1]|] eqn:E; [|discriminate]. apply ADD in E. destruct E as (u & s & -> & R & E). destruct ts1 as [|k ts1]; [discriminate|].
    destruct (cmp_op k) as [op|] eqn:K.
    + destruct (p_add n cx ts1) as [[l2 ts2]|] eqn:E2; [|discriminate]. injection H as <- <-. apply ADD in E2. destruct E2 as (u2 & s2 & -> & R2 & E2). exists (u ++ k :: u2), (PBin op s s2).
      split; [rewrite <- app_assoc; auto|]. split; [eapply g_cmp; eauto; apply comparisons_op; auto|]. cbn [elab]. rewrite E, E2. auto.
    + injection H as <- <-. exists u, s. split; auto. split; auto. constructor. auto.
  - intros cx ts t r H. cbn [p_add] in H. destruct (p_mul n cx ts) as [[l ts1]|] eqn:E; [|discriminate]. apply MUL in E. destruct E as (u & s & -> & R & E). eapply AL; eauto. constructor. auto.
  - intros cx ts t r H. cbn [p_mul] in H. destruct (p_unary n cx ts) as [[l ts1]|] eqn:E; [|discriminate]. apply UN in E. destruct E as (u & s & -> & R & E). eapply ML; eauto. constructor. auto.
  - intros cx ts t r H. cbn [p_unary] in H. assert (D : hd KEof ts = KMinus \/ hd KEof ts <> KMinus) by (destruct ts as [|k ts]; [right; discriminate|]; destruct k; auto; right; discriminate).
    destruct D as [D|D].
    + destruct ts as [|k ts]; [discriminate|]. simpl in D. subst k. destruct (p_unary n cx ts) as [[t1 ts1]|] eqn:E; [|discriminate]. injection H as <- <-. apply UN in E. destruct E as (u & s & -> & R & E).
      exists (KMinus :: u), (PNeg s). split; auto. split; [apply g_neg; auto|]. cbn [elab]. rewrite E. auto.
    + assert (Q : p_primary n cx ts = Some (t, r)) by (destruct ts as [|k ts]; auto; destruct k; auto; destruct D; auto). apply PR in Q; auto. destruct Q as (u & s & A & B & C). exists u, s. split; auto. split; auto. constructor. auto.
  - (* primary *) intros cx ts t r D H. cbn [p_primary] in H.
    match type of H with match ?m with _ => _ end = _ => destruct m as [[base ts1]|] eqn:E; [|discriminate] end.
    assert (X : exists u s, ts = u ++ ts1 /\ reads LPrimary u s /\ elab cx s = Some base).
    { clear H. destruct ts as [|k ts]; [discriminate|]. destruct k; try discriminate.
      - (* case *) destruct (p_logic n cx ts) as [[s1 ts2]|] eqn:E1; [|discriminate]. apply LOG in E1. destruct E1 as (u & s & -> & R & E1). destruct ts2 as [|k ts2]; [discriminate|]. destruct k; try discriminate.
        destruct (case_loop n cx [] None ts2) as [[[g d] ts3]|] eqn:E2; [|discriminate]. apply ARMS in E2. destruct E2 as (u2 & arms & -> & R2 & E2). cbn [fst snd] in E. destruct (make_case s1 g d) as [c|] eqn:E3; [|discriminate]. injection E as <- <-.
        exists (KCase :: u ++ KLBrace :: u2 ++ [KRBrace]), (PCase s arms). split; [cbn [app]; repeat (rewrite <- app_assoc; cbn [app]); auto|]. split; [apply g_case; auto|]. rewrite elab_case, E1, E2, E3. auto.
      - (* fold *) destruct ts as [|k ts]; [discriminate|]. destruct k; try discriminate.
        destruct (p_logic n cx ts) as [[t1 ts2]|] eqn:E1; [|discriminate]. apply LOG in E1. destruct E1 as (u & s & -> & R & E1). destruct ts2 as [|k ts2]; [discriminate|]. destruct k; try discriminate.
        destruct (p_logic n cx ts2) as [[t2 ts3]|] eqn:E2; [|discriminate]. apply LOG in E2. destruct E2 as (u2 & s2 & -> & R2 & E2). destruct ts3 as [|k ts3]; [discriminate|]. destruct k; try discriminate.
        destruct (p_logic n (deeper 2 cx) ts3) as [[t3 ts4]|] eqn:E3; [|discriminate]. apply LOG in E3. destruct E3 as (u3 & s3 & -> & R3 & E3). destruct ts4 as [|k ts4]; [discriminate|]. destruct k; try discriminate. injection E as <- <-.
        exists (KFold :: KLParen :: u ++ KComma :: u2 ++ KComma :: u3 ++ [KRParen]), (PFold s s2 s3). split; [cbn [app]; repeat (rewrite <- app_assoc; cbn [app]); auto|]. split; [apply g_fold; auto|]. cbn [elab]. rewrite E1, E2, E3. auto.
      - (* a name *) destruct ts as [|k ts].
        + destruct (resolve_binder cx s) as [x|] eqn:E1; [|discriminate]. injection E as <- <-. exists [KIdent s], (PName s). split; auto. split; [constructor|auto].
        + assert (K : k = KLParen \/ k <> KLParen) by (destruct k; auto; right; discriminate). destruct K as [->|K].
          * destruct ts as [|k ts]; [exfalso; destruct (p_logic n cx []) as [[a r0]|] eqn:E1; [|discriminate]; apply LOG in E1; destruct E1 as (u & sa & A & R & _); apply (proj1 reads_nonempty) in R; destruct u; [simpl in R; lia|discriminate]|]. assert (K : k = KRParen \/ k <> KRParen) by (destruct k; auto; right; discriminate). destruct K as [->|K].
            -- destruct (call cx s []) as [c|] eqn:E1; [|discriminate]. injection E as <- <-. exists (KIdent s :: KLParen :: [] ++ [KRParen]), (PCall s []). split; auto. split; [constructor; constructor|]. rewrite elab_call. cbn [elab_args]. auto.
            -- assert (Q : (' (a, ts) <- p_logic n cx (k :: ts); ' (args, ts) <- args_loop n cx [a] ts; t <- call cx s args; Some (t, ts)) = Some (base, ts1)) by (rewrite <- E; destruct k; auto; contradiction). clear E.
               destruct (p_logic n cx (k :: ts)) as [[a ts2]|] eqn:E1; [|discriminate]. apply LOG in E1. destruct E1 as (u & sa & E0 & R & E1). rewrite E0.
               destruct (args_loop n cx [a] ts2) as [[args ts3]|] eqn:E2; [|discriminate]. destruct (call cx s args) as [c|] eqn:E3; [|discriminate]. injection Q as <- <-.
               eapply (ARGS cx [a] ts2 args ts3 u [sa]) in E2; [|apply g_arg; auto|discriminate|cbn [elab_args]; rewrite E1; auto]. destruct E2 as (u2 & ss & A & B & C). exists (KIdent s :: KLParen :: u2 ++ [KRParen]), (PCall s ss).
               split; [rewrite A; cbn [app]; rewrite <- app_assoc; auto|]. split; [apply g_call; auto|]. rewrite elab_call, C. auto.
          * assert (Q : (t <- resolve_binder cx s; Some (t, k :: ts)) = Some (base, ts1)) by (rewrite <- E; destruct k; auto; contradiction). destruct (resolve_binder cx s) as [x|] eqn:E1; [|discriminate]. injection Q as <- <-. exists [KIdent s], (PName s). split; auto. split; [constructor|auto].
      - injection E as <- <-. exists [KInt n0], (PInt n0). split; auto. split; [constructor|auto].
      - destruct ts as [|k ts]; [discriminate|]. destruct k; try discriminate. injection E as <- <-. exists [KDollar; KInt n0], (PRow n0). split; auto. split; [constructor|auto].
      - destruct ts as [|k ts]; [discriminate|]. destruct k; try discriminate. injection E as <- <-. exists [KCaret; KInt n0], (PBound n0). split; auto. split; [constructor|auto].
      - destruct (p_logic n cx ts) as [[t1 ts2]|] eqn:E1; [|discriminate]. apply LOG in E1. destruct E1 as (u & s & -> & R & E1). destruct ts2 as [|k ts2]; [discriminate|]. destruct k; try discriminate. injection E as <- <-.
        exists (KLParen :: u ++ [KRParen]), s. split; [cbn [app]; rewrite <- app_assoc; auto|]. split; [apply g_paren; auto|auto].
      - destruct D. auto. }
    destruct X as (u & s & -> & R & E1). eapply projs_inv; eauto.
  - intros cx t0 ts t r u0 s0 R E H. cbn [logic_loop] in H. destruct ts as [|k ts]; [discriminate|]. assert (K : k = KAndAnd \/ k <> KAndAnd) by (destruct k; auto; right; discriminate). destruct K as [->|K].
    + destruct (p_cmp n cx ts) as [[l ts1]|] eqn:E1; [|discriminate]. apply CMP in E1. destruct E1 as (u & s & -> & R1 & E1).
      destruct (LL cx (TBinary BAnd t0 l) ts1 t r (u0 ++ KAndAnd :: u) (PBin BAnd s0 s)) as (v & w & A & B & C); auto; [apply g_and; auto|cbn [elab]; rewrite E, E1; auto|].
      exists v, w. split; auto. rewrite <- A, <- app_assoc. auto.
    + assert (Q : Some (t0, k :: ts) = Some (t, r)) by (rewrite <- H; destruct k; auto; contradiction). injection Q as <- <-. exists u0, s0. auto.
  - intros cx t0 ts t r u0 s0 R E H. cbn [add_loop] in H. destruct ts as [|k ts]; [discriminate|]. destruct (add_op k) as [op|] eqn:K.
    + destruct (p_mul n cx ts) as [[l ts1]|] eqn:E1; [|discriminate]. apply MUL in E1. destruct E1 as (u & s & -> & R1 & E1).
      destruct (AL cx (TBinary op t0 l) ts1 t r (u0 ++ k :: u) (PBin op s0 s)) as (v & w & A & B & C); auto; [eapply g_add; eauto; apply sums_op; auto|cbn [elab]; rewrite E, E1; auto|].
      exists v, w. split; auto. rewrite <- A, <- app_assoc. auto.
    + injection H as <- <-. exists u0, s0. auto.
  - intros cx t0 ts t r u0 s0 R E H. cbn [mul_loop] in H. destruct ts as [|k ts]; [discriminate|]. assert (K : k = KStar \/ k <> KStar) by (destruct k; auto; right; discriminate). destruct K as [->|K].
    + destruct (p_unary n cx ts) as [[l ts1]|] eqn:E1; [|discriminate]. apply UN in E1. destruct E1 as (u & s & -> & R1 & E1).
      destruct (ML cx (TBinary BMul t0 l) ts1 t r (u0 ++ KStar :: u) (PBin BMul s0 s)) as (v & w & A & B & C); auto; [apply g_mul; auto|cbn [elab]; rewrite E, E1; auto|].
      exists v, w. split; auto. rewrite <- A, <- app_assoc. auto.
    + assert (Q : Some (t0, k :: ts) = Some (t, r)) by (rewrite <- H; destruct k; auto; contradiction). injection Q as <- <-. exists u0, s0. auto.
  - intros cx us ts us' r u0 ss0 R NE E H. cbn [args_loop] in H. destruct ts as [|k ts]; [discriminate|]. destruct k; try discriminate.
    + injection H as <- <-. exists u0, ss0. auto.
    + destruct (p_logic n cx ts) as [[a ts1]|] eqn:E1; [|discriminate]. apply LOG in E1. destruct E1 as (u & s & -> & R1 & E1).
      destruct (ARGS cx (us ++ [a]) ts1 us' r (u0 ++ KComma :: u) (ss0 ++ [s])) as (v & w & A & B & C); auto; [apply g_args; auto|destruct ss0; discriminate|rewrite elab_args_app, E; cbn [elab_args]; rewrite E1; auto|].
      exists v, w. split; auto. rewrite <- A, <- app_assoc. auto.
  - intros cx g d ts g' d' r H. cbn [case_loop] in H. destruct ts as [|k ts]; [discriminate|]. destruct k; try discriminate.
    + destruct (String.eqb_spec s "_") as [->|NU].
      * destruct ts as [|k ts]; [discriminate|]. destruct k; try discriminate. destruct (p_logic n cx ts) as [[a ts1]|] eqn:E1; [|discriminate]. apply LOG in E1. destruct E1 as (u & sa & -> & R1 & E1).
        apply ARMS in H. destruct H as (v & arms & A & B & C). destruct (comma_inv ts1) as (sep & S1 & S2). rewrite A in S2. subst ts1.
        exists ([KIdent "_"] ++ KFatArrow :: u ++ sep ++ v), ((Default, sa) :: arms). split; [cbn [app]; repeat (rewrite <- app_assoc; cbn [app]); auto|]. split; [apply (g_arm Default); auto; discriminate|]. cbn [elab_arms]. rewrite E1. auto.
      * destruct (lookup (cx_cons cx) s) as [[tag arity]|] eqn:L; [|discriminate]. destruct ts as [|k ts]; [discriminate|]. destruct k; try discriminate. destruct (names ts) as [[xs ts0]|] eqn:N; [|discriminate]. apply names_inv in N. subst ts.
        destruct (length xs =? arity) eqn:AR; [|discriminate]. destruct ts0 as [|k ts]; [discriminate|]. destruct k; try discriminate. destruct (p_logic n (bind_names xs cx) ts) as [[a ts1]|] eqn:E1; [|discriminate]. apply LOG in E1. destruct E1 as (u & sa & -> & R1 & E1).
        apply ARMS in H. destruct H as (v & arms & A & B & C). destruct (comma_inv ts1) as (sep & S1 & S2). rewrite A in S2. subst ts1.
        exists ((KIdent s :: KLParen :: separated xs ++ [KRParen]) ++ KFatArrow :: u ++ sep ++ v), ((Ctor s xs, sa) :: arms). split; [cbn [app]; repeat (rewrite <- app_assoc; cbn [app]); auto|].
        split; [apply (g_arm (Ctor s xs)); auto; intros c ys [= -> ->]; auto|]. cbn [elab_arms]. rewrite L, AR, E1. auto.
    + injection H as <- <- <-. exists [], []. split; auto. split; [constructor|auto].
Qed.

(** A text is accepted exactly if it is of the grammar and its names stand for something. *)
Lemma parse_exact cx ts k rest t : ends (k :: rest) ->
  p_logic (enough (ts ++ k :: rest)) cx (ts ++ k :: rest) = Some (t, k :: rest) <-> exists s, reads LLogic ts s /\ elab cx s = Some t.
Proof.
  intros EN. apply ends_ended in EN. split.
  - intros H. destruct (proj1 (parser_sound _) _ _ _ _ H) as (u & s & A & B & C). apply app_inv_tail in A. subst u. eauto.
  - intros (s & R & E). apply (whole ts s cx t); auto; [apply (proj1 parses); auto|]. unfold enough. rewrite app_length. lia.
Qed.
Lemma parse_longest cx ts k rest t r : ends (k :: rest) -> (exists s, reads LLogic ts s /\ elab cx s = Some t) -> forall t', p_logic (enough (ts ++ k :: rest)) cx (ts ++ k :: rest) = Some (t', r) -> t' = t /\ r = k :: rest.
Proof. intros EN X t' H. apply (parse_exact cx ts k rest t EN) in X. rewrite X in H. injection H as <- <-. auto. Qed.
