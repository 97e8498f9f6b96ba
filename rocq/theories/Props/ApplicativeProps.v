(** C68: programs in the applicative syntax are read as its grammar says. *)
From Coq Require Import String.
From Verif Require Import Proofs.AppExprP.
From Coq Require Import Lia.
Local Open Scope nat_scope.

(** Terms are read as those of the pipe syntax that use no constructors. *)
Theorem c68_terms ts k rest t : applicative (ts ++ k :: rest) -> ends (k :: rest) -> q_term (ts ++ k :: rest) = Some (t, k :: rest) <-> a_term [] ts t.
Proof.
  intros A E. rewrite (proj1 (term_agrees _ A)). split; [|intros T; apply term_complete; auto]. intros H. apply term_sound in H. destruct H as (u & X & T). apply app_inv_tail in X. subst. auto.
Qed.
Print Assumptions c68_terms.

(** A collection expression is accepted exactly if it is one of the grammar, and as the grammar says. *)
Theorem c68_expression ts e k rest n : applicative (ts ++ k :: rest) -> k <> KColonColon -> n > length ts -> q_expr n (ts ++ k :: rest) = Some (e, k :: rest) <-> applied ts e.
Proof.
  intros A N L. split; [|intros R; apply (proj1 applied_complete); auto; simpl; intros [H|[]]; auto].
  intros H. apply (proj1 (applied_sound_n _)) in H; auto. destruct H as (u & X & R). apply app_inv_tail in X. subst. auto.
Qed.
Print Assumptions c68_expression.

(** A text that closes no brace that is not open is accepted exactly if it is a program, and its statements are
    those of the program. *)
Theorem c68_program ts ss : applicative ts -> ~ In KEof ts -> no_stray_brace ts -> q_parse (ts ++ [KEof]) = Some ss <-> applicative_program ts ss.
Proof.
  intros A NE NS. assert (A1 : applicative (ts ++ [KEof])) by (rewrite applicative_app; split; auto; split; intros [H|[]]; discriminate). unfold q_parse. split.
  - destruct (q_program _ (ts ++ [KEof])) as [[ss1 r]|] eqn:E; [|discriminate]. intros H. injection H as <-. apply app_program_sound in E; auto. destruct E as (u & E & P & (k & r1 & -> & K)).
    pose proof (app_program_even _ _ P) as [EV NU].
    destruct (@exists_last _ (k :: r1)) as (r2 & x & Q); [discriminate|]. rewrite Q, app_assoc in E. apply app_inj_tail in E. destruct E as [-> <-].
    destruct r2 as [|y r2]; [rewrite app_nil_r; auto|]. simpl in Q. injection Q as <- ->. exfalso. destruct K as [-> | ->].
    + apply NE. rewrite in_app_iff. simpl. auto.
    + specialize (NS (u ++ [KRBrace]) r2). rewrite <- app_assoc in NS. specialize (NS eq_refl). rewrite opened_app, closed_app in NS. simpl in NS. lia.
  - intros P. rewrite (app_program_complete _ _ P _ [KEof]); auto; [exists KEof, []; auto|rewrite app_length; simpl; lia].
Qed.
Print Assumptions c68_program.
Theorem c68_unambiguous ts s1 s2 : applicative ts -> applicative_program ts s1 -> applicative_program ts s2 -> s1 = s2.
Proof.
  intros A P1 P2. assert (A1 : applicative (ts ++ [KEof])) by (rewrite applicative_app; split; auto; split; intros [H|[]]; discriminate). assert (EN : program_end [KEof]) by (exists KEof, []; auto).
  pose proof (app_program_complete _ _ P1 (S (length ts)) [KEof] A1 EN (Nat.lt_succ_diag_r _)) as E1. pose proof (app_program_complete _ _ P2 (S (length ts)) [KEof] A1 EN (Nat.lt_succ_diag_r _)) as E2. rewrite E1 in E2. injection E2 as ->. auto.
Qed.
Print Assumptions c68_unambiguous.

(** Whatever has no sum of a single part can be written in the pipe syntax too. *)
Theorem c68_pipes ts e : applied ts e -> no_single_sums e -> exists us, p_expr [] (us ++ [KSemi]) = Some (e, [KSemi]).
Proof. intros R N. destruct (proj1 in_pipes ts e R N) as [us U]. exists us. apply expr_complete; auto. simpl. intros H; repeat destruct H as [H|H]; try discriminate; contradiction. Qed.
Print Assumptions c68_pipes.

(** ** A program *)
(** [let e = MAP(INPUT 0, ($0[0]; $1)); s: scope { var r = REDUCE(CONCAT(e, NEGATE(r)), DISTINCT); } export "out" = JOIN(s::r, e, ($2 ; tuple($0[0])));] *)
Definition app_first_part : list Tok :=
  [KLet; KIdent "e"; KEq; KMap; KLParen; KInput; KInt 0; KComma; KLParen; KDollar; KInt 0; KLBracket; KInt 0; KRBracket; KSemi; KDollar; KInt 1; KRParen; KRParen; KSemi]%string.
Definition app_the_scope : list Tok :=
  [KIdent "s"; KColon; KScope; KLBrace; KVar; KIdent "r"; KEq; KReduce; KLParen; KConcat; KLParen; KIdent "e"; KComma; KNegate; KLParen; KIdent "r"; KRParen; KRParen; KComma; KDistinct; KRParen; KSemi; KRBrace]%string.
Definition app_last_part : list Tok :=
  [KExport; KStr "out"; KEq; KJoin; KLParen; KIdent "s"; KColonColon; KIdent "r"; KComma; KIdent "e"; KComma; KLParen; KDollar; KInt 2; KSemi; KIdent "tuple"; KLParen; KDollar; KInt 0; KLBracket; KInt 0; KRBracket; KRParen; KRParen; KRParen; KSemi]%string.
Definition app_text : list Tok := app_first_part ++ app_the_scope ++ app_last_part.
Definition app_statements : list Stmt :=
  [SLet "e" (EMap (EInput 0) {| p_key := TTuple [TProj (TVar 0) 0]; p_val := TTuple [TSpread (TVar 1)] |});
   SScope "s" [SVar "r" (EReduce (EConcat [EName "e"; ENegate (EName "r")]) RDistinct)];
   SExport "out" (EJoin (EQualified "s" "r") (EName "e") {| p_key := TTuple [TSpread (TVar 2)]; p_val := TTuple [TTuple [TProj (TVar 0) 0]] |})]%string.
Lemma app_text_fits : applicative app_text /\ ~ In KEof app_text.
Proof. unfold applicative. repeat split; cbv; intros H; repeat destruct H as [H|H]; try discriminate; contradiction. Qed.
Lemma app_text_balanced : no_stray_brace app_text.
Proof.
  intros u v E. assert (D : forall n, n <= length app_text -> closed (firstn n app_text) <= opened (firstn n app_text)).
  { assert (F : forallb (fun n => (closed (firstn n app_text) <=? opened (firstn n app_text))%nat) (seq 0 (S (length app_text))) = true) by (vm_compute; reflexivity).
    intros n L. rewrite forallb_forall in F. apply Nat.leb_le. apply F. apply in_seq. lia. }
  specialize (D (length u)). rewrite E in D. rewrite firstn_app, firstn_all, Nat.sub_diag, firstn_O, app_nil_r in D. apply D. rewrite app_length. lia.
Qed.
Example app_text_is_a_program : applicative_program app_text app_statements.
Proof. apply c68_program; [apply app_text_fits|apply app_text_fits|apply app_text_balanced|]. vm_compute. reflexivity. Qed.
Example app_sum_applied : applied [KConcat; KLParen; KIdent "a"; KComma; KInput; KInt 3; KRParen]%string (EConcat [EName "a"; EInput 3])%string /\ no_single_sums (EConcat [EName "a"; EInput 3])%string.
Proof. split; [|simpl; auto]. apply (y_concat [KIdent "a"; KComma; KInput; KInt 3]%string [EName "a"; EInput 3]%string). apply (y_more [KIdent "a"]%string [EName "a"]%string [KInput; KInt 3] (EInput 3)); [apply y_one|]; constructor. Qed.

(** A closing brace at the top ends the program here too. *)
Theorem c68_stray_brace_refuted : exists ts ss, applicative ts /\ ~ In KEof ts /\ q_parse (ts ++ [KEof]) = Some ss /\ ~ exists ss', applicative_program ts ss'.
Proof.
  exists (KRBrace :: app_text), []. destruct app_text_fits as [A N]. split; [rewrite applicative_cons; repeat split; try discriminate; apply A|]. split; [simpl; intros [H|H]; [discriminate|auto]|]. split; [reflexivity|].
  intros [ss' P]. apply app_program_even in P. destruct P as [P _]. vm_compute in P. discriminate.
Qed.
Print Assumptions c68_stray_brace_refuted.
