(** Collection expressions and programs. *)
From Coq Require Import String.
From Verif Require Export Proofs.PipeProgP.
From Coq Require Import Lia.
Local Open Scope nat_scope.

Scheme an_expr_mind := Induction for an_expr Sort Prop
with a_sum_mind := Induction for a_sum Sort Prop
with an_op_mind := Induction for an_op Sort Prop.
Combined Scheme expr_all from an_expr_mind, a_sum_mind, an_op_mind.

(** What follows an expression, which begins with none of these. *)
Definition not_in (bad : list Tok) (ts : list Tok) : Prop := match ts with [] => False | k :: _ => ~ In k bad end.
Definition follows (l : place) : list Tok := match l with Piped | Added => [KColonColon; KPlus; KMinus] | Atom | Joined => [KColonColon] end.
Definition expr_parsed (cons : Constructors) (l : place) (ts : list Tok) (e : Expr) : Prop :=
  forall n rest, not_in (follows l) rest ->
  match l with
  | Atom => n + 2 >= 10 * length ts -> p_atom n cons (ts ++ rest) = Some (e, rest)
  | Added => n + 1 >= 10 * length ts -> p_concat n cons (ts ++ rest) = Some (e, rest)
  | Piped => n >= 10 * length ts -> exists m, m >= 1 /\ m + 10 * length ts >= n /\ p_pipe n cons (ts ++ rest) = pipe_loop m cons e rest
  | Joined => n >= 10 * length ts -> exists m, m >= 1 /\ m + 10 * length ts >= n /\ (' (r, ts) <- p_atom n cons (ts ++ rest); pipe_loop n cons r ts) = pipe_loop m cons e rest
  end.
Definition sum_parsed (cons : Constructors) (ts : list Tok) (es : list Expr) : Prop :=
  forall n rest, not_in [KColonColon] rest -> n + 2 >= 10 * length ts -> exists m, m >= 1 /\ m + 10 * length ts >= n /\
    (' (e, ts) <- p_atom n cons (ts ++ rest); concat_loop n cons [e] ts) = concat_loop m cons es rest.
Definition op_parsed (cons : Constructors) (ts : list Tok) (f : Expr -> Expr) : Prop :=
  forall n e rest, n >= 10 * length ts -> p_op n cons e (ts ++ rest) = Some (f e, rest).
Lemma expr_nonempty cons : (forall l ts e, an_expr cons l ts e -> 1 <= length ts) /\ (forall ts es, a_sum cons ts es -> 1 <= length ts /\ es <> []) /\ (forall ts f, an_op cons ts f -> 1 <= length ts).
Proof. apply expr_all; intros; auto; try (split; [|try destruct es; discriminate]); simpl in *; rewrite ?app_length in *; simpl; try lia. Qed.
Lemma pipe_stop m cons e k rest : k <> KPipe -> m >= 1 -> pipe_loop m cons e (k :: rest) = Some (e, k :: rest).
Proof. intros N L. destruct m; [lia|]. cbn [pipe_loop]. destruct k; auto; contradiction. Qed.
Lemma concat_stop m cons es k rest : k <> KPlus -> k <> KMinus -> m >= 1 -> concat_loop m cons es (k :: rest) = Some (es, k :: rest).
Proof. intros N N' L. destruct m; [lia|]. cbn [concat_loop]. destruct k; auto; contradiction. Qed.
Ltac other := simpl; let H := fresh in intros H; repeat destruct H as [H|H]; try discriminate; contradiction.

Lemma exprs_parsed cons : (forall l ts e, an_expr cons l ts e -> expr_parsed cons l ts e) /\ (forall ts es, a_sum cons ts es -> sum_parsed cons ts es) /\ (forall ts f, an_op cons ts f -> op_parsed cons ts f).
Proof.
  apply expr_all; unfold expr_parsed.
  - intros ts e R IH n rest N L. pose proof (proj1 (expr_nonempty cons) _ _ _ R). destruct n as [|n]; [lia|]. exists n. split; [lia|]. split; [lia|]. cbn [p_pipe]. rewrite (IH n rest N) by lia. auto.
  - intros ts e os f R IH O IHo n rest N L. pose proof (proj2 (proj2 (expr_nonempty cons)) _ _ O). rewrite app_length in *. cbn [length] in *. rewrite <- app_assoc. cbn [app].
    destruct (IH n (KPipe :: os ++ rest)) as (m & M1 & M2 & Q); [other|lia|]. rewrite Q. destruct m as [|m]; [lia|]. exists m. split; [lia|]. split; [lia|]. cbn [pipe_loop]. rewrite (IHo m e rest) by lia. auto.
  - intros ts es S IH n rest N L. pose proof (proj1 (proj2 (expr_nonempty cons)) _ _ S) as [LE NE]. destruct n as [|n]; [lia|]. cbn [p_concat]. destruct rest as [|k rest]; [destruct N|].
    assert (N1 : not_in [KColonColon] (k :: rest)) by (intros [H|[]]; apply N; simpl; auto). destruct (IH n (k :: rest) N1) as (m & M1 & M2 & Q); [lia|]. destruct (p_atom n cons (ts ++ k :: rest)) as [[e ts1]|] eqn:E.
    + rewrite Q. rewrite concat_stop; auto; intros ->; apply N; simpl; auto.
    + rewrite concat_stop in Q; [discriminate|intros ->; apply N; simpl; auto|intros ->; apply N; simpl; auto|lia].
  - intros i n rest N L. cbn [length] in L. destruct n as [|n]; [lia|]. reflexivity.
  - intros i n rest N L. cbn [length] in L. destruct n as [|n]; [lia|]. reflexivity.
  - intros x n rest N L. cbn [length] in L. destruct n as [|n]; [lia|]. cbn [app p_atom]. destruct rest as [|k rest]; auto. destruct k; auto. destruct N. simpl. auto.
  - intros x f n rest N L. cbn [length] in L. destruct n as [|n]; [lia|]. reflexivity.
  - intros ts e R IH n rest N L. cbn [length] in L. rewrite app_length in L. cbn [length] in L. destruct n as [|n]; [lia|]. cbn [app p_atom]. rewrite <- app_assoc. cbn [app].
    destruct (IH n (KRParen :: rest)) as (m & M1 & M2 & Q); [other|lia|]. rewrite Q, pipe_stop by (auto; discriminate). auto.
  - intros ts e R IH n rest N L. pose proof (proj1 (expr_nonempty cons) _ _ _ R). exists n. split; [lia|]. split; [lia|]. rewrite (IH n rest N) by lia. auto.
  - intros ts e os f R IH O IHo n rest N L. pose proof (proj2 (proj2 (expr_nonempty cons)) _ _ O). rewrite app_length in *. cbn [length] in *. rewrite <- app_assoc. cbn [app].
    destruct (IH n (KPipe :: os ++ rest)) as (m & M1 & M2 & Q); [other|lia|]. rewrite Q. destruct m as [|m]; [lia|]. exists m. split; [lia|]. split; [lia|]. cbn [pipe_loop]. rewrite (IHo m e rest) by lia. auto.
  - intros ts e R IH n rest N L. pose proof (proj1 (expr_nonempty cons) _ _ _ R). exists n. split; [lia|]. split; [lia|]. rewrite (IH n rest N) by lia. auto.
  - intros a es b e S IH R IHb n rest N L. pose proof (proj1 (expr_nonempty cons) _ _ _ R). rewrite app_length in *. cbn [length] in *. rewrite <- app_assoc. cbn [app].
    destruct (IH n (KPlus :: b ++ rest)) as (m & M1 & M2 & Q); [other|lia|]. rewrite Q. destruct m as [|m]; [lia|]. exists m. split; [lia|]. split; [lia|]. cbn [concat_loop]. rewrite (IHb m rest N) by lia. auto.
  - intros a es b e S IH R IHb n rest N L. pose proof (proj1 (expr_nonempty cons) _ _ _ R). rewrite app_length in *. cbn [length] in *. rewrite <- app_assoc. cbn [app].
    destruct (IH n (KMinus :: b ++ rest)) as (m & M1 & M2 & Q); [other|lia|]. rewrite Q. destruct m as [|m]; [lia|]. exists m. split; [lia|]. split; [lia|]. cbn [concat_loop]. rewrite (IHb m rest N) by lia. auto.
  - intros ts p P n e rest L. cbn [length] in L. destruct n as [|n]; [lia|]. cbn [app p_op]. rewrite (projection_complete _ _ _ rest P). auto.
  - intros ts p P n e rest L. cbn [length] in L. destruct n as [|n]; [lia|]. cbn [app p_op]. rewrite (projection_complete _ _ _ rest P). auto.
  - intros a r b p R IH P n e rest L. cbn [length] in L. rewrite app_length in L. cbn [length] in L. rewrite app_length in L. cbn [length] in L. destruct n as [|n]; [lia|]. cbn [app p_op]. rewrite <- app_assoc. cbn [app]. rewrite <- app_assoc. cbn [app].
    destruct (IH n (KComma :: b ++ KRParen :: rest)) as (m & M1 & M2 & Q); [other|lia|]. rewrite pipe_stop in Q by (auto; discriminate).
    destruct (p_atom n cons (a ++ KComma :: b ++ KRParen :: rest)) as [[r1 ts1]|]; [|discriminate]. rewrite Q. rewrite (projection_complete _ _ _ (KRParen :: rest) P). auto.
  - intros n e rest L. cbn [length] in L. destruct n as [|n]; [lia|]. reflexivity.
  - intros n e rest L. cbn [length] in L. destruct n as [|n]; [lia|]. reflexivity.
  - intros n e rest L. cbn [length] in L. destruct n as [|n]; [lia|]. reflexivity.
  - intros n e rest L. cbn [length] in L. destruct n as [|n]; [lia|]. reflexivity.
  - intros ts t T n e rest L. cbn [length] in L. destruct n as [|n]; [lia|]. cbn [app p_op]. rewrite <- app_assoc. cbn [app]. rewrite (paren_complete _ _ _ rest T). auto.
  - intros n e rest L. cbn [length] in L. destruct n as [|n]; [lia|]. reflexivity.
  - intros n e rest L. cbn [length] in L. destruct n as [|n]; [lia|]. reflexivity.
  - intros ts t T n e rest L. cbn [length] in L. destruct n as [|n]; [lia|]. cbn [app p_op]. rewrite <- app_assoc. cbn [app]. rewrite (paren_complete _ _ _ rest T). auto.
  - intros ts t T n e rest L. cbn [length] in L. destruct n as [|n]; [lia|]. cbn [app p_op]. rewrite <- app_assoc. cbn [app]. rewrite (paren_complete _ _ _ rest T). auto.
  - intros n e rest L. cbn [length] in L. destruct n as [|n]; [lia|]. reflexivity.
  - intros l n e rest L. cbn [length] in L. destruct n as [|n]; [lia|]. reflexivity.
Qed.
Lemma expr_complete cons ts e k rest : an_expr cons Piped ts e -> ~ In k [KColonColon; KPlus; KMinus; KPipe] -> p_expr cons (ts ++ k :: rest) = Some (e, k :: rest).
Proof.
  intros R N. destruct (proj1 (exprs_parsed cons) _ _ _ R (enough (ts ++ k :: rest)) (k :: rest)) as (m & M1 & M2 & Q).
  - intros H. apply N. destruct H as [H|[H|[H|[]]]]; simpl; auto.
  - unfold enough. rewrite app_length. lia.
  - unfold p_expr. rewrite Q. apply pipe_stop; auto. intros ->. apply N. simpl. auto.
Qed.

(** ** Soundness *)
Definition exprs_sound (cons : Constructors) (n : nat) : Prop :=
  (forall ts e r, p_pipe n cons ts = Some (e, r) -> exists u, ts = u ++ r /\ an_expr cons Piped u e) /\
  (forall e0 ts e r u0 l, l = Piped \/ l = Joined -> an_expr cons l u0 e0 -> pipe_loop n cons e0 ts = Some (e, r) -> exists u, u0 ++ ts = u ++ r /\ an_expr cons l u e) /\
  (forall ts e r, p_concat n cons ts = Some (e, r) -> exists u, ts = u ++ r /\ an_expr cons Added u e) /\
  (forall es0 ts es r u0, a_sum cons u0 es0 -> concat_loop n cons es0 ts = Some (es, r) -> exists u, u0 ++ ts = u ++ r /\ a_sum cons u es) /\
  (forall ts e r, p_atom n cons ts = Some (e, r) -> exists u, ts = u ++ r /\ an_expr cons Atom u e) /\
  (forall e0 ts e r, p_op n cons e0 ts = Some (e, r) -> exists u f, ts = u ++ r /\ an_op cons u f /\ e = f e0).
Lemma expr_sound_n cons n : exprs_sound cons n.
Proof.
  induction n as [|n IH]; [unfold exprs_sound; repeat match goal with |- _ /\ _ => split end; intros; discriminate|].
  destruct IH as (PI & PL & CO & CL & AT & OP). unfold exprs_sound. repeat match goal with |- _ /\ _ => split end.
  - intros ts e r H. cbn [p_pipe] in H. destruct (p_concat n cons ts) as [[e1 ts1]|] eqn:E; [|discriminate]. apply CO in E. destruct E as (u & -> & R). eapply (PL e1 ts1 e r u Piped); auto. constructor. auto.
  - intros e0 ts e r u0 l LL R H. cbn [pipe_loop] in H. destruct ts as [|k ts]; [discriminate|]. destruct k; try (injection H as <- <-; exists u0; auto; fail).
    destruct (p_op n cons e0 ts) as [[e1 ts1]|] eqn:E; [|discriminate]. apply OP in E. destruct E as (v & f & -> & O & ->). destruct (PL (f e0) ts1 e r (u0 ++ KPipe :: v) l LL) as (u & A & B); auto.
    { destruct LL as [-> | ->]; [apply x_piped|apply x_joined_piped]; auto. }
    exists u. split; auto. rewrite <- A, <- app_assoc. auto.
  - intros ts e r H. cbn [p_concat] in H. destruct (p_atom n cons ts) as [[e1 ts1]|] eqn:E; [|discriminate]. apply AT in E. destruct E as (u0 & -> & R). destruct (concat_loop n cons [e1] ts1) as [[es ts2]|] eqn:E2; [|discriminate]. injection H as <- <-.
    destruct (CL [e1] ts1 es ts2 u0 (s_one _ _ _ R) E2) as (u & A & B). exists u. split; auto. apply (x_sum cons u es B).
  - intros es0 ts es r u0 S H. cbn [concat_loop] in H. destruct ts as [|k ts]; [discriminate|]. destruct k; try (injection H as <- <-; exists u0; auto; fail).
    + destruct (p_atom n cons ts) as [[e1 ts1]|] eqn:E; [|discriminate]. apply AT in E. destruct E as (v & -> & R). destruct (CL (es0 ++ [e1]) ts1 es r (u0 ++ KPlus :: v)) as (u & A & B); auto; [apply s_plus; auto|]. exists u. split; auto. rewrite <- A, <- app_assoc. auto.
    + destruct (p_atom n cons ts) as [[e1 ts1]|] eqn:E; [|discriminate]. apply AT in E. destruct E as (v & -> & R). destruct (CL (es0 ++ [ENegate e1]) ts1 es r (u0 ++ KMinus :: v)) as (u & A & B); auto; [apply s_minus; auto|]. exists u. split; auto. rewrite <- A, <- app_assoc. auto.
  - intros ts e r H. cbn [p_atom] in H. destruct ts as [|k ts]; [discriminate|]. destruct k; try discriminate.
    + destruct ts as [|k ts]; [discriminate|]. destruct k; try discriminate. injection H as <- <-. exists [KInput; KInt n0]. split; auto. constructor.
    + destruct ts as [|k ts]; [discriminate|]. destruct k; try discriminate. injection H as <- <-. exists [KImport; KStr s]. split; auto. constructor.
    + destruct ts as [|k ts]; [injection H as <- <-; exists [KIdent s]; split; auto; constructor|]. destruct k; try (injection H as <- <-; exists [KIdent s]; split; auto; constructor; fail).
      destruct ts as [|k ts]; [discriminate|]. destruct k; try discriminate. injection H as <- <-. exists [KIdent s; KColonColon; KIdent s0]. split; auto. constructor.
    + destruct (p_pipe n cons ts) as [[e1 ts1]|] eqn:E; [|discriminate]. apply PI in E. destruct E as (u & -> & R). destruct ts1 as [|k ts1]; [discriminate|]. destruct k; try discriminate. injection H as <- <-. exists (KLParen :: u ++ [KRParen]). split; [cbn [app]; rewrite <- app_assoc; auto|constructor; auto].
  - intros e0 ts e r H. cbn [p_op] in H. destruct ts as [|k ts]; [discriminate|]. destruct k; try discriminate.
    + destruct (p_projection cons ts) as [[p ts1]|] eqn:E; [|discriminate]. injection H as <- <-. apply projection_sound in E. destruct E as (u & -> & P). eexists (KKey :: u), _. split; [reflexivity|]. split; [apply o_key; eauto|reflexivity].
    + destruct (p_projection cons ts) as [[p ts1]|] eqn:E; [|discriminate]. injection H as <- <-. apply projection_sound in E. destruct E as (u & -> & P). eexists (KMap :: u), _. split; [reflexivity|]. split; [apply o_map; eauto|reflexivity].
    + destruct ts as [|k ts]; [discriminate|]. destruct k; try discriminate. destruct (p_atom n cons ts) as [[e1 ts1]|] eqn:E; [|discriminate]. apply AT in E. destruct E as (u0 & -> & R). destruct (pipe_loop n cons e1 ts1) as [[e2 ts2]|] eqn:E; [|discriminate].
      destruct (PL e1 ts1 e2 ts2 u0 Joined) as (u & A & B); auto; [constructor; auto|]. rewrite A. destruct ts2 as [|k ts2]; [discriminate|]. destruct k; try discriminate. destruct (p_projection cons ts2) as [[p ts3]|] eqn:E3; [|discriminate]. apply projection_sound in E3. destruct E3 as (v & -> & P).
      destruct ts3 as [|k ts3]; [discriminate|]. destruct k; try discriminate. injection H as <- <-. eexists (KJoin :: KLParen :: u ++ KComma :: v ++ [KRParen]), _. split; [cbn [app]; repeat (rewrite <- app_assoc; cbn [app]); auto|]. split; [apply o_join; eauto|reflexivity].
    + injection H as <- <-. eexists [KMin], _. split; [reflexivity|]. split; [constructor|reflexivity].
    + injection H as <- <-. eexists [KDistinct], _. split; [reflexivity|]. split; [constructor|reflexivity].
    + injection H as <- <-. eexists [KCount], _. split; [reflexivity|]. split; [constructor|reflexivity].
    + injection H as <- <-. eexists [KCollect], _. split; [reflexivity|]. split; [constructor|reflexivity].
    + injection H as <- <-. eexists [KArrange], _. split; [reflexivity|]. split; [constructor|reflexivity].
    + injection H as <- <-. eexists [KNegate], _. split; [reflexivity|]. split; [constructor|reflexivity].
    + destruct (p_paren_term cons ts) as [[p ts1]|] eqn:E; [|discriminate]. injection H as <- <-. apply paren_sound in E. destruct E as (u & -> & P). eexists (KFilter :: KLParen :: u ++ [KRParen]), _. split; [cbn [app]; rewrite <- app_assoc; auto|]. split; [apply o_filter; eauto|reflexivity].
    + destruct (p_paren_term cons ts) as [[p ts1]|] eqn:E; [|discriminate]. injection H as <- <-. apply paren_sound in E. destruct E as (u & -> & P). eexists (KEnterAt :: KLParen :: u ++ [KRParen]), _. split; [cbn [app]; rewrite <- app_assoc; auto|]. split; [apply o_enter; eauto|reflexivity].
    + injection H as <- <-. eexists [KLiftIter], _. split; [reflexivity|]. split; [constructor|reflexivity].
    + destruct (p_paren_term cons ts) as [[p ts1]|] eqn:E; [|discriminate]. injection H as <- <-. apply paren_sound in E. destruct E as (u & -> & P). eexists (KFlatMap :: KLParen :: u ++ [KRParen]), _. split; [cbn [app]; rewrite <- app_assoc; auto|]. split; [apply o_flatmap; eauto|reflexivity].
    + destruct ts as [|k ts]; [discriminate|]. destruct k; try discriminate. destruct ts as [|k ts]; [discriminate|]. destruct k; try discriminate. destruct ts as [|k ts]; [discriminate|]. destruct k; try discriminate. injection H as <- <-.
      eexists [KInspect; KLParen; KIdent s; KRParen], _. split; [reflexivity|]. split; [apply o_inspect|reflexivity].
Qed.
Lemma assigned_complete cons a e ts : an_expr cons Piped a e -> p_assigned cons (KEq :: a ++ KSemi :: ts) = Some (e, ts).
Proof. intros R. cbn [p_assigned]. rewrite (expr_complete cons a e KSemi ts R); auto. simpl. intros H; repeat destruct H as [H|H]; try discriminate; contradiction. Qed.
Lemma assigned_sound cons ts e r : p_assigned cons ts = Some (e, r) -> exists a, ts = KEq :: a ++ KSemi :: r /\ an_expr cons Piped a e.
Proof.
  unfold p_assigned. destruct ts as [|k ts]; [discriminate|]. destruct k; try discriminate. destruct (p_expr cons ts) as [[e1 ts1]|] eqn:E; [|discriminate]. apply (proj1 (expr_sound_n cons _)) in E. destruct E as (u & -> & R).
  destruct ts1 as [|k ts1]; [discriminate|]. destruct k; try discriminate. intros H. injection H as <- <-. eauto.
Qed.

(** ** Programs *)
Definition program_end (rest : list Tok) : Prop := exists k r, rest = k :: r /\ (k = KEof \/ k = KRBrace).
Lemma program_complete cons ts ss cons' : a_program cons ts ss cons' -> forall n rest, program_end rest -> n > length ts -> p_program n cons (ts ++ rest) = Some (ss, cons', rest).
Proof.
  induction 1 as [cons|cons c arity tag ts ss cons' P IH|cons x a e ts ss cons' R P IH|cons x a e ts ss cons' R P IH|cons x a e ts ss cons' R P IH|cons x a b cons1 ts ss cons' P1 IH1 P2 IH2]; intros n rest E L;
    (destruct n as [|n]; [lia|]); cbn [length] in L; rewrite ?app_length in L; cbn [length] in L.
  - destruct E as (k & r & -> & [-> | ->]); reflexivity.
  - cbn [app p_program]. apply IH; auto. lia.
  - cbn [app p_program]. rewrite <- app_assoc. cbn [app]. rewrite (assigned_complete cons a e _ R), (IH n rest E) by lia. auto.
  - cbn [app p_program]. rewrite <- app_assoc. cbn [app]. rewrite (assigned_complete cons a e _ R), (IH n rest E) by lia. auto.
  - cbn [app p_program]. rewrite <- app_assoc. cbn [app]. rewrite (assigned_complete cons a e _ R), (IH n rest E) by lia. auto.
  - cbn [app p_program]. rewrite <- app_assoc. cbn [app]. rewrite (IH1 n (KRBrace :: ts ++ rest)); [|eexists _, _; split; [reflexivity|auto]|lia]. rewrite (IH2 n rest E) by lia. auto.
Qed.
Lemma program_sound n : forall cons ts ss cons' r, p_program n cons ts = Some (ss, cons', r) -> exists u, ts = u ++ r /\ a_program cons u ss cons' /\ program_end r.
Proof.
  induction n as [|n IH]; intros cons ts ss cons' r H; [discriminate|]. cbn [p_program] in H. destruct ts as [|k ts]; [discriminate|]. destruct k; try discriminate.
  - destruct ts as [|k ts]; [discriminate|]. destruct k; try discriminate. destruct (p_assigned cons ts) as [[e ts1]|] eqn:E; [|discriminate]. apply assigned_sound in E. destruct E as (a & -> & R). destruct (p_program n cons ts1) as [[[ss1 c1] ts2]|] eqn:E; [|discriminate]. injection H as <- <- <-.
    apply IH in E. destruct E as (u & -> & P & EN). exists (KLet :: KIdent s :: KEq :: a ++ KSemi :: u). split; [cbn [app]; rewrite <- app_assoc; auto|]. split; [constructor; auto|auto].
  - destruct ts as [|k ts]; [discriminate|]. destruct k; try discriminate. destruct (p_assigned cons ts) as [[e ts1]|] eqn:E; [|discriminate]. apply assigned_sound in E. destruct E as (a & -> & R). destruct (p_program n cons ts1) as [[[ss1 c1] ts2]|] eqn:E; [|discriminate]. injection H as <- <- <-.
    apply IH in E. destruct E as (u & -> & P & EN). exists (KVar :: KIdent s :: KEq :: a ++ KSemi :: u). split; [cbn [app]; rewrite <- app_assoc; auto|]. split; [constructor; auto|auto].
  - destruct ts as [|k ts]; [discriminate|]. destruct k; try discriminate. destruct (p_assigned cons ts) as [[e ts1]|] eqn:E; [|discriminate]. apply assigned_sound in E. destruct E as (a & -> & R). destruct (p_program n cons ts1) as [[[ss1 c1] ts2]|] eqn:E; [|discriminate]. injection H as <- <- <-.
    apply IH in E. destruct E as (u & -> & P & EN). exists (KExport :: KStr s :: KEq :: a ++ KSemi :: u). split; [cbn [app]; rewrite <- app_assoc; auto|]. split; [constructor; auto|auto].
  - do 7 (destruct ts as [|[] ts]; try discriminate). apply IH in H. destruct H as (u & -> & P & EN). eexists (_ :: _ :: _ :: _ :: _ :: _ :: _ :: _ :: u). split; [reflexivity|]. split; [constructor; auto|auto].
  - do 2 (destruct ts as [|[] ts]; try discriminate). destruct (p_program n cons ts) as [[[b c1] ts1]|] eqn:E; [|discriminate]. apply IH in E. destruct E as (u & -> & P & _). destruct ts1 as [|[] ts1]; try discriminate.
    destruct (p_program n c1 ts1) as [[[ss1 c2] ts2]|] eqn:E; [|discriminate]. injection H as <- <- <-. apply IH in E. destruct E as (v & -> & P2 & EN). exists (KIdent s :: KColon :: KLBrace :: u ++ KRBrace :: v). split; [cbn [app]; rewrite <- app_assoc; auto|]. split; [econstructor; eauto|auto].
  - injection H as <- <- <-. exists []. split; auto. split; [constructor|eexists _, _; split; [reflexivity|auto]].
  - injection H as <- <- <-. exists []. split; auto. split; [constructor|eexists _, _; split; [reflexivity|auto]].
Qed.

(** ** Programs have balanced braces, and no end *)
Lemma opened_app a b : opened (a ++ b) = opened a + opened b.
Proof. induction a as [|k a IH]; auto. destruct k; cbn [app opened]; rewrite ?IH; auto. Qed.
Lemma closed_app a b : closed (a ++ b) = closed a + closed b.
Proof. induction a as [|k a IH]; auto. destruct k; cbn [app closed]; rewrite ?IH; auto. Qed.
Definition even (ts : list Tok) : Prop := opened ts = closed ts /\ ~ In KEof ts.
Lemma even_app a b : even a -> even b -> even (a ++ b).
Proof. intros [A A'] [B B']. split; [rewrite opened_app, closed_app; lia|rewrite in_app_iff; tauto]. Qed.
Lemma even_cons k a : opened [k] = 0 -> closed [k] = 0 -> k <> KEof -> even a -> even (k :: a).
Proof. intros O C N A. apply (even_app [k] a); auto. split; [lia|]. intros [H|[]]; auto. Qed.
Lemma even_nil : even []. Proof. split; auto. Qed.
Lemma even_braces a : even a -> even (KLBrace :: a ++ [KRBrace]).
Proof. intros [A A']. split; [cbn [opened closed]; rewrite opened_app, closed_app; simpl; lia|]. simpl. rewrite in_app_iff. simpl. intros [H|[H|[H|[]]]]; try discriminate. auto. Qed.
Lemma even_braces_then a b : even a -> even b -> even (KLBrace :: a ++ KRBrace :: b).
Proof. intros A B. change (even ((KLBrace :: a) ++ [KRBrace] ++ b)). rewrite app_assoc. apply even_app; auto. apply even_braces; auto. Qed.
Lemma even_separated xs : even (separated xs).
Proof. destruct xs as [|x xs]; [apply even_nil|]. simpl. apply even_cons; try reflexivity; try discriminate. induction xs as [|y xs IH]; [apply even_nil|]. simpl. repeat (apply even_cons; [reflexivity|reflexivity|discriminate|]). auto. Qed.
Ltac evens := repeat first [assumption|apply even_nil|apply even_separated|apply even_braces_then|apply even_braces|apply even_cons; [reflexivity|reflexivity|discriminate|]|apply even_app].
Lemma reads_even : (forall l ts t, reads l ts t -> even ts) /\ (forall ts l, reads_args ts l -> even ts) /\ (forall ts l, reads_arms ts l -> even ts).
Proof.
  apply reads_all; intros; try (evens; fail).
  - apply even_app; auto. simpl in i. repeat destruct i as [[= <- <-]|i]; try contradiction; evens.
  - apply even_app; auto. simpl in i. repeat destruct i as [[= <- <-]|i]; try contradiction; evens.
  - destruct p as [c xs|]; destruct o as [-> | ->]; evens.
Qed.
Lemma term_even cons ts t : a_term cons ts t -> even ts.
Proof. intros (s & R & _). eapply (proj1 reads_even); eauto. Qed.
Lemma field_even cons ts t : a_field cons ts t -> even ts.
Proof. intros [n|ts1 t1 T _]; [evens|eapply term_even; eauto]. Qed.
Lemma fields_even cons ts fs : the_fields cons ts fs -> even ts.
Proof. intros [|ts1 fs1 S]; [evens|]. induction S as [ts2 t F|a fs2 b t S IH F]; apply field_even in F; evens. Qed.
Lemma projection_even cons ts p : a_projection cons ts p -> even ts.
Proof. intros [a ks F|a ks b vs F G]; apply fields_even in F; [|apply fields_even in G]; evens. Qed.
Lemma exprs_even cons : (forall l ts e, an_expr cons l ts e -> even ts) /\ (forall ts es, a_sum cons ts es -> even ts) /\ (forall ts f, an_op cons ts f -> even ts).
Proof. apply expr_all; intros; try match goal with H : a_projection _ _ _ |- _ => apply projection_even in H end; try match goal with H : a_term _ _ _ |- _ => apply term_even in H end; evens. Qed.
Lemma program_even cons ts ss cons' : a_program cons ts ss cons' -> even ts.
Proof. induction 1; try match goal with H : an_expr _ _ _ _ |- _ => apply (proj1 (exprs_even _)) in H end; evens. Qed.
