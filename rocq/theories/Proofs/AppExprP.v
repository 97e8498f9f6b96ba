(** Expressions and programs of the applicative syntax. *)
From Coq Require Import String.
From Verif Require Export Proofs.ApplicativeP.
From Coq Require Import Lia.
Local Open Scope nat_scope.

Scheme applied_mind := Induction for applied Sort Prop
with parts_mind := Induction for parts Sort Prop.
Combined Scheme applied_all from applied_mind, parts_mind.

(** ** Completeness *)
Lemma app_projection cs b p rest : a_projection [] b p -> applicative (b ++ rest) -> cs = b ++ rest -> q_projection cs = Some (p, rest).
Proof. intros P A ->. rewrite (proj1 (projection_agrees _ A)). apply projection_complete. auto. Qed.
Lemma app_term b t k rest : a_term [] b t -> applicative (b ++ k :: rest) -> ends (k :: rest) -> q_term (b ++ k :: rest) = Some (t, k :: rest).
Proof. intros T A E. rewrite (proj1 (term_agrees _ A)). apply term_complete; auto. Qed.
Lemma ends_paren rest : ends (KRParen :: rest). Proof. simpl. intros H; repeat destruct H as [H|H]; try discriminate; contradiction. Qed.
Definition applied_ok (ts : list Tok) (e : Expr) : Prop := forall n rest, applicative (ts ++ rest) -> not_in [KColonColon] rest -> n > length ts -> q_expr n (ts ++ rest) = Some (e, rest).
Definition parts_ok (ts : list Tok) (es : list Expr) : Prop := forall n rest, applicative (ts ++ rest) -> not_in [KColonColon] rest -> n > length ts ->
  exists m, m >= 1 /\ m + length ts >= n /\ (' (e, ts) <- q_expr n (ts ++ rest); q_parts n [e] ts) = q_parts m es rest.
Ltac norm A := repeat (rewrite <- app_assoc in A; cbn [app] in A).
Ltac part A := first [assumption|repeat rewrite ?applicative_cons, ?applicative_app in A; repeat rewrite ?applicative_cons, ?applicative_app; tauto].
Ltac other2 := simpl; let H := fresh in intros H; repeat destruct H as [H|H]; try discriminate; contradiction.
Ltac start A L := intros n rest A N L; cbn [length] in L; rewrite ?app_length in L; cbn [length] in L; rewrite ?app_length in L; cbn [length] in L; rewrite ?app_length in L; cbn [length] in L;
  (destruct n as [|n]; [lia|]); cbn [app] in A |- *; norm A; repeat (rewrite <- app_assoc; cbn [app]); cbn [q_expr].
Lemma applied_complete : (forall ts e, applied ts e -> applied_ok ts e) /\ (forall ts es, parts ts es -> parts_ok ts es).
Proof.
  apply applied_all; unfold applied_ok, parts_ok.
  - intros i. start A L. auto.
  - intros s. start A L. auto.
  - intros x. start A L. destruct rest as [|k rest]; auto. destruct k; auto. destruct N. simpl. auto.
  - intros x f. start A L. auto.
  - intros a e b p R IH P. start A L. rewrite (IH n (KComma :: b ++ KRParen :: rest)); [|part A|other2|lia]. rewrite (app_projection _ b p (KRParen :: rest) P); [auto|part A|auto].
  - intros a l b r c p Rl IHl Rr IHr P. start A L. rewrite (IHl n (KComma :: b ++ KComma :: c ++ KRParen :: rest)); [|part A|other2|lia]. rewrite (IHr n (KComma :: c ++ KRParen :: rest)); [|part A|other2|lia]. rewrite (app_projection _ c p (KRParen :: rest) P); [auto|part A|auto].
  - intros a e k r R IH I. start A L. rewrite (IH n (KComma :: k :: KRParen :: rest)); [|part A|other2|lia]. simpl in I. repeat destruct I as [[= <- <-]|I]; try contradiction; auto.
  - intros a e b t R IH T. start A L. rewrite (IH n (KComma :: b ++ KRParen :: rest)); [|part A|other2|lia]. rewrite (app_term b t KRParen rest T); [auto|part A|apply ends_paren].
  - intros a e R IH. start A L. rewrite (IH n (KRParen :: rest)); [auto|part A|other2|lia].
  - intros a e b t R IH T. start A L. rewrite (IH n (KComma :: b ++ KRParen :: rest)); [|part A|other2|lia]. rewrite (app_term b t KRParen rest T); [auto|part A|apply ends_paren].
  - intros a e R IH. start A L. rewrite (IH n (KRParen :: rest)); [auto|part A|other2|lia].
  - intros a e b t R IH T. start A L. rewrite (IH n (KComma :: b ++ KRParen :: rest)); [|part A|other2|lia]. rewrite (app_term b t KRParen rest T); [auto|part A|apply ends_paren].
  - intros a e l R IH. start A L. rewrite (IH n (KComma :: KIdent l :: KRParen :: rest)); [auto|part A|other2|lia].
  - intros a es R IH. start A L. destruct (IH n (KRParen :: rest)) as (m & M1 & M2 & Q); [part A|other2|lia|]. destruct m as [|m]; [lia|]. cbn [q_parts] in Q.
    destruct (q_expr n (a ++ KRParen :: rest)) as [[e ts]|]; [|discriminate]. rewrite Q. auto.
  - intros a e R IH. start A L. rewrite (IH n (KRParen :: rest)); [auto|part A|other2|lia].
  - intros a e R IH n rest A N L. exists n. split; [lia|]. split; [lia|]. rewrite (IH n rest A N L). auto.
  - intros a es b e P IH R IHb n rest A N L. rewrite app_length in L |- *. cbn [length] in L |- *. norm A. rewrite <- app_assoc. cbn [app]. destruct (IH n (KComma :: b ++ rest)) as (m & M1 & M2 & Q); [part A|other2|lia|]. rewrite Q.
    destruct m as [|m]; [lia|]. exists m. split; [lia|]. split; [lia|]. cbn [q_parts]. rewrite (IHb m rest); [auto|part A|auto|lia].
Qed.

(** ** Soundness *)
Lemma app_projection_sound ts p r : applicative ts -> q_projection ts = Some (p, r) -> exists u, ts = u ++ r /\ a_projection [] u p.
Proof. intros A H. rewrite (proj1 (projection_agrees _ A)) in H. apply projection_sound. auto. Qed.
Lemma app_term_sound ts t r : applicative ts -> q_term ts = Some (t, r) -> exists u, ts = u ++ r /\ a_term [] u t.
Proof. intros A H. rewrite (proj1 (term_agrees _ A)) in H. apply term_sound. auto. Qed.
Lemma closed_by_some {A} (e : A) ts x r : closed_by e ts = Some (x, r) -> x = e /\ ts = KRParen :: r.
Proof. destruct ts as [|[] ts]; try discriminate. intros [= <- <-]. auto. Qed.
Definition applied_sound (n : nat) : Prop :=
  (forall ts e r, applicative ts -> q_expr n ts = Some (e, r) -> exists u, ts = u ++ r /\ applied u e) /\
  (forall es0 ts es r u0, applicative ts -> parts u0 es0 -> q_parts n es0 ts = Some (es, r) -> exists u, u0 ++ ts = u ++ KRParen :: r /\ parts u es).
Ltac shape := cbn [app]; repeat (rewrite <- app_assoc; cbn [app]); auto.
Ltac inside EX A H := match type of H with match q_expr ?n ?ts with _ => _ end = _ => let e := fresh "e" in let ts1 := fresh "ts1" in let E := fresh "E" in let u := fresh "u" in let R := fresh "R" in
  destruct (q_expr n ts) as [[e ts1]|] eqn:E; [|discriminate]; apply EX in E; [|part A]; destruct E as (u & -> & R) end.
Lemma applied_sound_n n : applied_sound n.
Proof.
  induction n as [|n [EX PA]]; [split; intros; discriminate|]. split.
  - intros ts e r A H. cbn [q_expr] in H. destruct ts as [|k ts]; [discriminate|]. destruct k; try discriminate.
    + destruct ts as [|[] ts]; try discriminate. injection H as <- <-. eexists [_; _]. split; [reflexivity|constructor].
    + destruct ts as [|[] ts]; try discriminate. injection H as <- <-. eexists [_; _]. split; [reflexivity|constructor].
    + destruct ts as [|[] ts]; try discriminate. inside EX A H. destruct ts1 as [|[] ts1]; try discriminate. destruct (q_projection ts1) as [[p ts2]|] eqn:Q; [|discriminate]. apply app_projection_sound in Q; [|part A]. destruct Q as (v & -> & P).
      apply closed_by_some in H. destruct H as [-> ->]. eexists (KMap :: KLParen :: u ++ KComma :: v ++ [KRParen]). split; [shape|apply y_map; auto].
    + destruct ts as [|[] ts]; try discriminate. inside EX A H. destruct ts1 as [|[] ts1]; try discriminate. inside EX A H. destruct ts0 as [|[] ts0]; try discriminate. destruct (q_projection ts0) as [[p ts2]|] eqn:Q; [|discriminate]. apply app_projection_sound in Q; [|part A]. destruct Q as (v & -> & P).
      apply closed_by_some in H. destruct H as [-> ->]. eexists (KJoin :: KLParen :: u ++ KComma :: u0 ++ KComma :: v ++ [KRParen]). split; [shape|apply y_join; auto].
    + destruct ts as [|[] ts]; try discriminate. inside EX A H. apply closed_by_some in H. destruct H as [-> ->]. eexists (KArrange :: KLParen :: u ++ [KRParen]). split; [shape|apply y_arrange; auto].
    + destruct ts as [|[] ts]; try discriminate. inside EX A H. apply closed_by_some in H. destruct H as [-> ->]. eexists (KNegate :: KLParen :: u ++ [KRParen]). split; [shape|apply y_negate; auto].
    + destruct ts as [|[] ts]; try discriminate. inside EX A H. destruct ts1 as [|[] ts1]; try discriminate. destruct (q_term ts1) as [[p ts2]|] eqn:Q; [|discriminate]. apply app_term_sound in Q; [|part A]. destruct Q as (v & -> & P).
      apply closed_by_some in H. destruct H as [-> ->]. eexists (KFilter :: KLParen :: u ++ KComma :: v ++ [KRParen]). split; [shape|apply y_filter; auto].
    + destruct ts as [|[] ts]; try discriminate. inside EX A H. destruct ts1 as [|[] ts1]; try discriminate. destruct (q_term ts1) as [[p ts2]|] eqn:Q; [|discriminate]. apply app_term_sound in Q; [|part A]. destruct Q as (v & -> & P).
      apply closed_by_some in H. destruct H as [-> ->]. eexists (KEnterAt :: KLParen :: u ++ KComma :: v ++ [KRParen]). split; [shape|apply y_enter; auto].
    + destruct ts as [|[] ts]; try discriminate. inside EX A H. apply closed_by_some in H. destruct H as [-> ->]. eexists (KLiftIter :: KLParen :: u ++ [KRParen]). split; [shape|apply y_lift; auto].
    + destruct ts as [|[] ts]; try discriminate. inside EX A H. destruct ts1 as [|[] ts1]; try discriminate. destruct (q_term ts1) as [[p ts2]|] eqn:Q; [|discriminate]. apply app_term_sound in Q; [|part A]. destruct Q as (v & -> & P).
      apply closed_by_some in H. destruct H as [-> ->]. eexists (KFlatMap :: KLParen :: u ++ KComma :: v ++ [KRParen]). split; [shape|apply y_flatmap; auto].
    + destruct ts as [|[] ts]; try discriminate. inside EX A H. destruct ts1 as [|[] ts1]; try discriminate. destruct ts1 as [|[] ts1]; try discriminate. apply closed_by_some in H. destruct H as [-> ->]. eexists (KInspect :: KLParen :: u ++ [KComma; _; KRParen]). split; [shape|apply y_inspect; auto].
    + destruct ts as [|k ts]; [injection H as <- <-; eexists [_]; split; [reflexivity|constructor]|]. destruct k; try (injection H as <- <-; eexists [_]; split; [reflexivity|constructor]; fail).
      destruct ts as [|[] ts]; try discriminate. injection H as <- <-. eexists [_; _; _]. split; [reflexivity|constructor].
    + destruct ts as [|[] ts]; try discriminate. inside EX A H. destruct ts1 as [|[] ts1]; try discriminate. destruct ts1 as [|k ts1]; try discriminate. destruct (q_reducer k) as [rd|] eqn:K; [|discriminate]. apply closed_by_some in H. destruct H as [-> ->].
      exists (KReduce :: KLParen :: u ++ [KComma; k; KRParen]). split; [shape|apply y_reduce; auto]. destruct k; try discriminate; injection K as <-; simpl; auto.
    + destruct ts as [|[] ts]; try discriminate. inside EX A H. destruct (q_parts n [e0] ts1) as [[es ts2]|] eqn:Q; [|discriminate]. injection H as <- <-. destruct (PA [e0] ts1 es ts2 u) as (v & X & V); [part A|constructor; auto|auto|].
      exists (KConcat :: KLParen :: v ++ [KRParen]). split; [cbn [app]; rewrite X; shape|apply y_concat; auto].
  - intros es0 ts es r u0 A P H. cbn [q_parts] in H. destruct ts as [|k ts]; [discriminate|]. destruct k; try discriminate.
    + injection H as <- <-. exists u0. auto.
    + inside EX A H. destruct (PA (es0 ++ [e]) ts1 es r (u0 ++ KComma :: u)) as (v & X & V); [part A|constructor; auto|auto|]. exists v. split; auto. rewrite <- X. shape.
Qed.

(** ** Programs *)
Lemma app_assigned_complete a e ts : applied a e -> applicative (a ++ KSemi :: ts) -> q_assigned (KEq :: a ++ KSemi :: ts) = Some (e, ts).
Proof. intros R A. cbn [q_assigned]. rewrite (proj1 applied_complete a e R); auto; [other2|rewrite app_length; lia]. Qed.
Lemma app_assigned_sound ts e r : applicative ts -> q_assigned ts = Some (e, r) -> exists a, ts = KEq :: a ++ KSemi :: r /\ applied a e.
Proof.
  intros A H. unfold q_assigned in H. destruct ts as [|[] ts]; try discriminate. destruct (q_expr (S (length ts)) ts) as [[e1 ts1]|] eqn:E; [|discriminate]. apply (proj1 (applied_sound_n _)) in E; [|part A]. destruct E as (u & -> & R).
  destruct ts1 as [|[] ts1]; try discriminate. injection H as <- <-. eauto.
Qed.
Lemma app_program_complete ts ss : applicative_program ts ss -> forall n rest, applicative (ts ++ rest) -> program_end rest -> n > length ts -> q_program n (ts ++ rest) = Some (ss, rest).
Proof.
  induction 1 as [|x a e ts ss R P IH|x a e ts ss R P IH|x a e ts ss R P IH|x scope a b ts ss S P1 IH1 P2 IH2]; intros n rest A E L;
    (destruct n as [|n]; [lia|]); cbn [length] in L; rewrite ?app_length in L; cbn [length] in L; rewrite ?app_length in L; cbn [length] in L; cbn [app] in A |- *; norm A; repeat (rewrite <- app_assoc; cbn [app]); cbn [q_program].
  - destruct E as (k & r & -> & [-> | ->]); reflexivity.
  - rewrite (app_assigned_complete a e _ R) by part A. rewrite (IH n rest); [auto|part A|auto|lia].
  - rewrite (app_assigned_complete a e _ R) by part A. rewrite (IH n rest); [auto|part A|auto|lia].
  - rewrite (app_assigned_complete a e _ R) by part A. rewrite (IH n rest); [auto|part A|auto|lia].
  - assert (E1 : program_end (KRBrace :: ts ++ rest)) by (eexists _, _; split; [reflexivity|auto]).
    destruct S as [-> | ->]; cbn [app] in *; (rewrite (IH1 n (KRBrace :: ts ++ rest)); [|part A|auto|lia]); (rewrite (IH2 n rest); [auto|part A|auto|lia]).
Qed.
Lemma app_program_sound n : forall ts ss r, applicative ts -> q_program n ts = Some (ss, r) -> exists u, ts = u ++ r /\ applicative_program u ss /\ program_end r.
Proof.
  induction n as [|n IH]; intros ts ss r A H; [discriminate|]. cbn [q_program] in H. destruct ts as [|k ts]; [discriminate|]. destruct k; try discriminate.
  - destruct ts as [|[] ts]; try discriminate. destruct (q_assigned ts) as [[e ts1]|] eqn:E; [|discriminate]. apply app_assigned_sound in E; [|part A]. destruct E as (a & -> & R). destruct (q_program n ts1) as [[ss1 ts2]|] eqn:E; [|discriminate]. injection H as <- <-.
    apply IH in E; [|part A]. destruct E as (u & -> & P & EN). eexists (KLet :: _ :: KEq :: a ++ KSemi :: u). split; [shape|]. split; [constructor; auto|auto].
  - destruct ts as [|[] ts]; try discriminate. destruct (q_assigned ts) as [[e ts1]|] eqn:E; [|discriminate]. apply app_assigned_sound in E; [|part A]. destruct E as (a & -> & R). destruct (q_program n ts1) as [[ss1 ts2]|] eqn:E; [|discriminate]. injection H as <- <-.
    apply IH in E; [|part A]. destruct E as (u & -> & P & EN). eexists (KVar :: _ :: KEq :: a ++ KSemi :: u). split; [shape|]. split; [constructor; auto|auto].
  - destruct ts as [|[] ts]; try discriminate. destruct (q_assigned ts) as [[e ts1]|] eqn:E; [|discriminate]. apply app_assigned_sound in E; [|part A]. destruct E as (a & -> & R). destruct (q_program n ts1) as [[ss1 ts2]|] eqn:E; [|discriminate]. injection H as <- <-.
    apply IH in E; [|part A]. destruct E as (u & -> & P & EN). eexists (KExport :: _ :: KEq :: a ++ KSemi :: u). split; [shape|]. split; [constructor; auto|auto].
  - destruct ts as [|[] ts]; try discriminate.
    assert (X : exists scope ts1, ts = scope ++ ts1 /\ (scope = [] \/ scope = [KScope]) /\ match ts with KScope :: ts => ts | _ => ts end = ts1).
    { destruct ts as [|k ts]; [exists [], []; auto|]. destruct k; try (eexists [], _; repeat match goal with |- _ /\ _ => split end; [reflexivity|auto|reflexivity]; fail). exists [KScope], ts. auto. }
    destruct X as (scope & ts1 & -> & S & X). rewrite X in H. clear X. assert (A1 : applicative ts1) by part A. destruct ts1 as [|[] ts1]; try discriminate.
    destruct (q_program n ts1) as [[b ts2]|] eqn:E; [|discriminate]. apply IH in E; [|part A1]. destruct E as (u & -> & P & _). destruct ts2 as [|[] ts2]; try discriminate.
    destruct (q_program n ts2) as [[ss1 ts3]|] eqn:E; [|discriminate]. injection H as <- <-. apply IH in E; [|part A1]. destruct E as (v & -> & P2 & EN). eexists (_ :: KColon :: scope ++ KLBrace :: u ++ KRBrace :: v). split; [shape|]. split; [constructor; auto|auto].
  - injection H as <- <-. exists []. split; auto. split; [constructor|eexists _, _; split; [reflexivity|auto]].
  - injection H as <- <-. exists []. split; auto. split; [constructor|eexists _, _; split; [reflexivity|auto]].
Qed.
Lemma applied_even : (forall ts e, applied ts e -> even ts) /\ (forall ts es, parts ts es -> even ts).
Proof.
  apply applied_all; intros; try match goal with H : a_projection _ _ _ |- _ => apply projection_even in H end; try match goal with H : a_term _ _ _ |- _ => apply term_even in H end;
    try match goal with H : In _ reducers |- _ => simpl in H; repeat destruct H as [[= <- <-]|H]; try contradiction end; evens.
Qed.
Lemma app_program_even ts ss : applicative_program ts ss -> even ts.
Proof.
  induction 1; try match goal with H : applied _ _ |- _ => apply (proj1 applied_even) in H end; try match goal with H : _ \/ _ |- _ => destruct H as [-> | ->] end; cbn [app]; evens.
Qed.

(** ** The same in the pipe syntax *)
Fixpoint all_no_single (l : list Expr) : Prop := match l with [] => True | x :: l => no_single_sums x /\ all_no_single l end.
Lemma no_single_concat es : no_single_sums (EConcat es) <-> length es <> 1 /\ all_no_single es.
Proof. simpl. enough (H : (fix all (l : list Expr) : Prop := match l with [] => True | x :: l => no_single_sums x /\ all l end) es <-> all_no_single es) by tauto. induction es as [|x es IH]; simpl; tauto. Qed.
Lemma all_no_single_app a b : all_no_single (a ++ b) <-> all_no_single a /\ all_no_single b.
Proof. induction a as [|x a IH]; simpl; tauto. Qed.
Lemma atom_piped ts e : an_expr [] Atom ts e -> an_expr [] Piped ts e.
Proof. intros R. apply x_added. apply (x_sum [] ts [e]). apply s_one. auto. Qed.
Lemma in_pipes : (forall ts e, applied ts e -> no_single_sums e -> exists us, an_expr [] Piped us e) /\ (forall ts es, parts ts es -> all_no_single es -> exists us, a_sum [] us es).
Proof.
  apply applied_all.
  - intros n _. eexists. apply atom_piped. constructor.
  - intros s _. eexists. apply atom_piped. constructor.
  - intros x _. eexists. apply atom_piped. constructor.
  - intros x f _. eexists. apply atom_piped. constructor.
  - intros a e b p R IH P N. destruct (IH N) as [us U]. eexists. eapply (x_piped [] us e _ (fun e => EMap e p) U). apply o_map. eauto.
  - intros a l b r c p Rl IHl Rr IHr P N. simpl in N. destruct (IHl (proj1 N)) as [us U]. destruct (IHr (proj2 N)) as [vs V]. eexists. eapply (x_piped [] us l _ (fun e => EJoin e r p) U). apply o_join; [|eauto]. apply x_joined. apply x_paren. exact V.
  - intros a e k r R IH I N. destruct (IH N) as [us U]. simpl in I. repeat destruct I as [[= <- <-]|I]; try contradiction.
    + eexists. apply (x_piped [] us e [KMin] (fun e => EReduce e RMin) U). constructor.
    + eexists. apply (x_piped [] us e [KDistinct] (fun e => EReduce e RDistinct) U). constructor.
    + eexists. apply (x_piped [] us e [KCount] (fun e => EReduce e RCount) U). constructor.
    + eexists. apply (x_piped [] us e [KCollect] (fun e => EReduce e RCollect) U). constructor.
  - intros a e b t R IH T N. destruct (IH N) as [us U]. eexists. eapply (x_piped [] us e _ (fun e => EFilter e t) U). apply o_filter. eauto.
  - intros a e R IH N. destruct (IH N) as [us U]. eexists. eapply (x_piped [] us e _ ENegate U). constructor.
  - intros a e b t R IH T N. destruct (IH N) as [us U]. eexists. eapply (x_piped [] us e _ (fun e => EEnterAt e t) U). apply o_enter. eauto.
  - intros a e R IH N. destruct (IH N) as [us U]. eexists. eapply (x_piped [] us e _ ELiftIter U). constructor.
  - intros a e b t R IH T N. destruct (IH N) as [us U]. eexists. eapply (x_piped [] us e _ (fun e => EFlatMap e t) U). apply o_flatmap. eauto.
  - intros a e l R IH N. destruct (IH N) as [us U]. eexists. eapply (x_piped [] us e _ (fun e => EInspect e l) U). constructor.
  - intros a es P IH N. apply no_single_concat in N. destruct N as [N1 N2]. destruct (IH N2) as [us U]. exists us. apply x_added. pose proof (x_sum [] us es U) as X. destruct es as [|x [|y es]]; auto. destruct N1. auto.
  - intros a e R IH N. destruct (IH N) as [us U]. eexists. eapply (x_piped [] us e _ EArrange U). constructor.
  - intros a e R IH [N _]. destruct (IH N) as [us U]. eexists. apply s_one. apply x_paren. exact U.
  - intros a es b e P IH R IHb N. apply all_no_single_app in N. destruct N as [N1 [N2 _]]. destruct (IH N1) as [us U]. destruct (IHb N2) as [vs V]. eexists. eapply s_plus; [exact U|apply x_paren; exact V].
Qed.
