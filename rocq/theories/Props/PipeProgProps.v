(** C66: programs in the pipe syntax are read as its grammar says. *)
From Coq Require Import String.
From Verif Require Import Proofs.PipeExprP.
From Coq Require Import Lia.
Local Open Scope nat_scope.

(** A collection expression, followed by something that does not continue it, is accepted exactly if it is one of
    the grammar, and as the grammar says. *)
Theorem c66_expression cons ts e k rest : ~ In k [KColonColon; KPlus; KMinus; KPipe] ->
  p_expr cons (ts ++ k :: rest) = Some (e, k :: rest) <-> an_expr cons Piped ts e.
Proof.
  intros N. split; [|intros R; apply expr_complete; auto].
  intros H. apply (proj1 (expr_sound_n cons _)) in H. destruct H as (u & E & R). apply app_inv_tail in E. subst. auto.
Qed.
Print Assumptions c66_expression.

(** The same of statements, up to the brace that closes their scope or the end. *)
Theorem c66_statements cons ts ss cons' k rest : k = KEof \/ k = KRBrace ->
  p_program (S (length (ts ++ k :: rest))) cons (ts ++ k :: rest) = Some (ss, cons', k :: rest) <-> a_program cons ts ss cons'.
Proof.
  intros K. split.
  - intros H. apply program_sound in H. destruct H as (u & E & P & _). apply app_inv_tail in E. subst. auto.
  - intros P. apply program_complete; auto; [exists k, rest; auto|rewrite app_length; lia].
Qed.
Print Assumptions c66_statements.

(** A text that closes no brace that is not open is accepted exactly if it is a program, and its statements are
    those of the program. *)
Theorem c66_program ts ss : ~ In KEof ts -> no_stray_brace ts -> parse (ts ++ [KEof]) = Some ss <-> exists cons, a_program [] ts ss cons.
Proof.
  intros NE NS. unfold parse. split.
  - destruct (p_program _ [] (ts ++ [KEof])) as [[[ss1 c] r]|] eqn:E; [|discriminate]. intros H. injection H as <-. apply program_sound in E. destruct E as (u & E & P & (k & r1 & -> & K)). exists c.
    pose proof (program_even _ _ _ _ P) as [EV NU].
    destruct (@exists_last _ (k :: r1)) as (r2 & x & Q); [discriminate|]. rewrite Q, app_assoc in E. apply app_inj_tail in E. destruct E as [-> <-].
    destruct r2 as [|y r2]; [rewrite app_nil_r; auto|]. simpl in Q. injection Q as <- ->. exfalso. destruct K as [-> | ->].
    + apply NE. rewrite in_app_iff. simpl. auto.
    + specialize (NS (u ++ [KRBrace]) r2). rewrite <- app_assoc in NS. specialize (NS eq_refl). rewrite opened_app, closed_app in NS. simpl in NS. lia.
  - intros [c P]. rewrite (program_complete _ _ _ _ P _ [KEof]); auto; [exists KEof, []; auto|rewrite app_length; simpl; lia].
Qed.
Print Assumptions c66_program.

(** Every program is accepted, whatever its terms have in braces, and there is one way to read it. *)
Theorem c66_unambiguous ts s1 c1 s2 c2 : a_program [] ts s1 c1 -> a_program [] ts s2 c2 -> parse (ts ++ [KEof]) = Some s1 /\ s1 = s2 /\ c1 = c2.
Proof.
  intros P1 P2. assert (L : S (length (ts ++ [KEof])) > length ts) by (rewrite app_length; lia). assert (EN : program_end [KEof]) by (exists KEof, []; auto).
  pose proof (program_complete _ _ _ _ P1 _ [KEof] EN L) as E1. pose proof (program_complete _ _ _ _ P2 _ [KEof] EN L) as E2. unfold parse. rewrite E1. rewrite E1 in E2. injection E2 as <- <-. auto.
Qed.
Print Assumptions c66_unambiguous.

(** What is accepted begins with a program, and then is at the end or at a brace. *)
Theorem c66_begins ts ss : parse ts = Some ss -> exists u k rest cons, ts = u ++ k :: rest /\ (k = KEof \/ k = KRBrace) /\ a_program [] u ss cons.
Proof.
  unfold parse. destruct (p_program _ [] ts) as [[[ss1 c] r]|] eqn:E; [|discriminate]. intros H. injection H as <-. apply program_sound in E. destruct E as (u & E & P & (k & r1 & -> & K)). exists u, k, r1, c. auto.
Qed.
Print Assumptions c66_begins.

(** ** A program *)
(** [con Pair(1) = 0; let e = input 0 | key($0[0]; $1); s: { var r = e - r | join(e | negate, ($2; Pair($0[0]))) | distinct; } export "out" = s::r | inspect(seen);] *)
Definition first_part : list Tok :=
  [KCon; KIdent "Pair"; KLParen; KInt 1; KRParen; KEq; KInt 0; KSemi;
   KLet; KIdent "e"; KEq; KInput; KInt 0; KPipe; KKey; KLParen; KDollar; KInt 0; KLBracket; KInt 0; KRBracket; KSemi; KDollar; KInt 1; KRParen; KSemi]%string.
Definition the_scope : list Tok :=
  [KIdent "s"; KColon; KLBrace; KVar; KIdent "r"; KEq; KIdent "e"; KMinus; KIdent "r"; KPipe; KJoin; KLParen; KIdent "e"; KPipe; KNegate; KComma; KLParen; KDollar; KInt 2; KSemi;
   KIdent "Pair"; KLParen; KDollar; KInt 0; KLBracket; KInt 0; KRBracket; KRParen; KRParen; KRParen; KPipe; KDistinct; KSemi; KRBrace]%string.
Definition last_part : list Tok := [KExport; KStr "out"; KEq; KIdent "s"; KColonColon; KIdent "r"; KPipe; KInspect; KLParen; KIdent "seen"; KRParen; KSemi]%string.
Definition text := first_part ++ the_scope ++ last_part.
Definition first_statement : Stmt := SLet "e" (EMap (EInput 0) {| p_key := TTuple [TProj (TVar 0) 0]; p_val := TTuple [TSpread (TVar 1)] |}).
Definition statements : list Stmt :=
  [first_statement;
   SScope "s" [SVar "r" (EReduce (EJoin (EConcat [EName "e"; ENegate (EName "r")]) (ENegate (EName "e")) {| p_key := TTuple [TSpread (TVar 2)]; p_val := TTuple [TInject (TInt 0) (TTuple [TProj (TVar 0) 0])] |}) RDistinct)];
   SExport "out" (EInspect (EQualified "s" "r") "seen")]%string.
Lemma no_end : ~ In KEof text.
Proof. cbv. intros H. repeat destruct H as [H|H]; try discriminate; contradiction. Qed.
Lemma balanced : no_stray_brace text.
Proof.
  intros u v E. assert (D : forall n, n <= length text -> closed (firstn n text) <= opened (firstn n text)).
  { assert (F : forallb (fun n => (closed (firstn n text) <=? opened (firstn n text))%nat) (seq 0 (S (length text))) = true) by (vm_compute; reflexivity).
    intros n L. rewrite forallb_forall in F. apply Nat.leb_le. apply F. apply in_seq. lia. }
  specialize (D (length u)). rewrite E in D. rewrite firstn_app, firstn_all, Nat.sub_diag, firstn_O, app_nil_r in D. apply D. rewrite app_length. lia.
Qed.
Example text_is_a_program : exists cons, a_program [] text statements cons.
Proof. apply c66_program; [apply no_end|apply balanced|]. vm_compute. reflexivity. Qed.
(** derived from the grammar by hand *)
Example sum_is_an_expression : an_expr [] Piped ([KIdent "a"; KMinus; KIdent "b"; KPipe; KDistinct])%string (EReduce (EConcat [EName "a"; ENegate (EName "b")]) RDistinct)%string.
Proof.
  apply (x_piped [] [KIdent "a"; KMinus; KIdent "b"]%string (EConcat [EName "a"; ENegate (EName "b")])%string [KDistinct] (fun e => EReduce e RDistinct)); [|constructor].
  apply x_added. apply (x_sum [] [KIdent "a"; KMinus; KIdent "b"]%string [EName "a"; ENegate (EName "b")]%string). apply (s_minus [] [KIdent "a"]%string [EName "a"]%string [KIdent "b"]%string (EName "b")%string); [apply s_one|]; constructor.
Qed.

(** ** Not every text that is accepted is a program *)
(** A closing brace at the top ends the program: the statements after it are dropped without notice. *)
Theorem c66_stray_brace_refuted : exists ts ss, ~ In KEof ts /\ parse (ts ++ [KEof]) = Some ss /\ (~ exists ss' cons, a_program [] ts ss' cons) /\ parse (first_part ++ KRBrace :: the_scope ++ last_part ++ [KEof]) = Some [first_statement].
Proof.
  exists (first_part ++ KRBrace :: the_scope), [first_statement]. split; [cbv; intros H; repeat destruct H as [H|H]; try discriminate; contradiction|]. split; [vm_compute; reflexivity|]. split; [|vm_compute; reflexivity].
  intros (ss' & c & P). apply program_even in P. destruct P as [P _]. vm_compute in P. discriminate.
Qed.
Print Assumptions c66_stray_brace_refuted.

(** A field that begins with a row is refused if it is anything but the row or a part of it: [$0 == $1] is a term,
    [filter($0 == $1)] is accepted and [map($0 == $1)] is not. *)
Theorem c66_field_refuted : exists ts t, a_term [] ts t /\
  (exists e, p_expr [] ([KInput; KInt 0; KPipe; KFilter; KLParen] ++ ts ++ [KRParen; KSemi]) = Some (e, [KSemi])) /\
  p_expr [] ([KInput; KInt 0; KPipe; KMap; KLParen] ++ ts ++ [KRParen; KSemi]) = None /\
  (exists e, p_expr [] ([KInput; KInt 0; KPipe; KMap; KLParen; KLParen] ++ ts ++ [KRParen; KRParen; KSemi]) = Some (e, [KSemi])).
Proof.
  exists [KDollar; KInt 0; KEqEq; KDollar; KInt 1], (TBinary BEq (TVar 0) (TVar 1)). split.
  - exists (PBin BEq (PRow 0) (PRow 1)). split; [|reflexivity]. apply g_logic. apply (g_cmp [KDollar; KInt 0] (PRow 0) KEqEq BEq [KDollar; KInt 1] (PRow 1)); [apply g_sum, g_product, g_unary; constructor|simpl; auto|apply g_sum, g_product, g_unary; constructor].
  - split; [eexists; vm_compute; reflexivity|]. split; [vm_compute; reflexivity|eexists; vm_compute; reflexivity].
Qed.
Print Assumptions c66_field_refuted.
