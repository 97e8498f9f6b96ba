(** C67: texts in the pipe syntax are cut into the longest tokens that can be read. *)
From Coq Require Import String Ascii.
From Verif Require Import Proofs.TokensP Proofs.PipeExprP.
From Verif Require Import Props.PipeProgProps.
From Coq Require Import Lia.
Local Open Scope nat_scope.

(** A text is accepted exactly if it consists of blanks, comments and what stands for tokens, each the longest
    that can be read there, and its tokens are those. *)
Theorem c67_tokens s ts : tokenize s = Some (ts ++ [KEof]) <-> tokens_of s ts.
Proof.
  unfold tokenize. split; [|intros T; apply turns_complete; auto].
  intros H. apply turns_sound in H. destruct H as (us & E & U). apply app_inj_tail in E. destruct E as [-> _]. auto.
Qed.
Print Assumptions c67_tokens.
Theorem c67_accepted s : (exists ts, tokenize s = Some ts) <-> exists ts, tokens_of s ts.
Proof.
  split; [intros [ts H]; apply turns_sound in H; destruct H as (us & _ & U); eauto|intros [ts T]; apply c67_tokens in T; eauto].
Qed.
Print Assumptions c67_accepted.
Theorem c67_unambiguous s a b : tokens_of s a -> tokens_of s b -> a = b.
Proof. intros A B. apply c67_tokens in A, B. rewrite A in B. injection B as B. apply app_inj_tail in B. destruct B; auto. Qed.
Print Assumptions c67_unambiguous.

(** Lines can be put one after the other: the tokens of each remain what they are. *)
Lemma line_longest_more w ks s r : stands_for w ks -> longest w s -> longest w (s ++ newline :: r).
Proof.
  intros S L w' s' X E. rewrite app_assoc in E. apply app_eq_app in E. destruct E as (l & [[E _]|[E E2]]); [apply (L w' l X E)|].
  destruct l as [|x v]; [rewrite app_nil_r in E; subst w'; apply (L _ [] X); rewrite app_nil_r; auto|]. cbn [app] in E2. injection E2 as <- _. exfalso. subst w'.
  pose proof (stands_lexeme _ _ S) as X0. apply lexeme_first in X0. destruct X0 as (c & w0 & -> & B0). apply lexeme_first in X. destruct X as (c' & w1 & Q & B). cbn [app] in Q. injection Q as <- Q.
  assert (IN : In newline w1) by (rewrite <- Q, in_app_iff; simpl; auto).
  destruct B as [H ->|b' _ -> N|k H ->|d k H ->|b' -> -> N|H W|H W]; try contradiction.
  + destruct IN as [IN|IN]; [discriminate|contradiction].
  + destruct IN as [->|[]]. destruct c as [[|] [|] [|] [|] [|] [|] [|] [|]]; discriminate H.
  + destruct B0 as [H0 ->|b0 H0 _ _|k0 H0 ->|d0 k0 H0 ->|b0 _ -> N0|H0 W0|H0 W0]; try discriminate.
    rewrite <- !app_assoc in Q. cbn [app] in Q. pose proof (same_quoted _ _ _ [] N0 N Q) as <-. apply app_inv_head in Q. injection Q as Q. destruct s; discriminate.
  + rewrite forallb_forall in W. apply W in IN. discriminate.
  + rewrite forallb_forall in W. apply W in IN. discriminate.
Qed.
Theorem c67_lines s t a b : tokens_of s a -> tokens_of t b -> tokens_of (s ++ newline :: t) (a ++ b).
Proof.
  intros A B. induction A as [|w s ks ts S L A IH].
  - apply (t_next [newline] t [] b); auto; [apply v_blank; simpl; auto|apply newline_longest].
  - rewrite <- !app_assoc. apply t_next; auto. eapply line_longest_more; eauto.
Qed.
Print Assumptions c67_lines.

(** From the text to the statements *)
Lemma no_end_token s ts : tokens_of s ts -> ~ In KEof ts.
Proof.
  induction 1 as [|w s ks ts S L T IH]; auto. rewrite in_app_iff. intros [I|I]; auto. destruct S as [c B|b N|x k X|b N|ds NE F LT|c w k A W R|c w A W R]; simpl in I; try contradiction; destruct I as [I|[]]; try discriminate.
  - subst k. apply symbols_are in X. unfold symbols in *. destruct (list_ascii_of_string x) as [|c [|d [|? ?]]]; try discriminate; cbn in X.
    + destruct c as [[|] [|] [|] [|] [|] [|] [|] [|]]; discriminate.
    + apply double_symbol in X. unfold symbols in X. cbn [In] in X. repeat destruct X as [X|X]; try discriminate. contradiction.
  - subst k. unfold reserved in R. cbn [In] in R. repeat destruct R as [R|R]; try discriminate. contradiction.
Qed.
Theorem c67_text s ss : (forall ts, tokens_of s ts -> no_stray_brace ts) ->
  parse_text s = Some ss <-> exists ts cons, tokens_of s ts /\ a_program [] ts ss cons.
Proof.
  intros NS. unfold parse_text. split.
  - destruct (tokenize s) as [ts|] eqn:E; [|discriminate]. intros H. unfold tokenize in E. apply turns_sound in E. destruct E as (us & -> & U). apply c66_program in H; [|eapply no_end_token; eauto|auto]. destruct H as [cons P]. eauto.
  - intros (ts & cons & T & P). pose proof T as T0. apply c67_tokens in T. rewrite T. apply c66_program; eauto. eapply no_end_token; eauto.
Qed.
Print Assumptions c67_text.

(** ** A text *)
Definition a_text : list ascii := list_ascii_of_string "let e=input 0|key($0[0];$1);-- the --edges".
Definition a_line : list ascii := list_ascii_of_string "export ""e >= 1""=e-e;".
Definition text_tokens : list Tok := [KLet; KIdent "e"; KEq; KInput; KInt 0; KPipe; KKey; KLParen; KDollar; KInt 0; KLBracket; KInt 0; KRBracket; KSemi; KDollar; KInt 1; KRParen; KSemi]%string.
Definition line_tokens : list Tok := [KExport; KStr "e >= 1"; KEq; KIdent "e"; KMinus; KIdent "e"; KSemi]%string.
Example text_has_tokens : tokens_of a_text text_tokens /\ tokens_of a_line line_tokens /\ tokens_of (a_text ++ newline :: a_line) (text_tokens ++ line_tokens).
Proof.
  assert (A : tokens_of a_text text_tokens) by (apply c67_tokens; vm_compute; reflexivity). assert (B : tokens_of a_line line_tokens) by (apply c67_tokens; vm_compute; reflexivity).
  split; [|split]; auto. apply c67_lines; auto.
Qed.
(** by hand: the longest symbol counts *)
Example longest_counts : tokens_of (list_ascii_of_string "<=") [KLtEq] /\ ~ tokens_of (list_ascii_of_string "<=") [KLt; KEq].
Proof.
  assert (A : tokens_of (list_ascii_of_string "<=") [KLtEq]).
  { apply (t_next (list_ascii_of_string "<=") [] [KLtEq] []); [apply v_symbol; simpl; auto 20| |constructor].
    intros w' s' _ E. apply (f_equal (@length ascii)) in E. rewrite !app_length in E. cbn in *. lia. }
  split; auto. intros B. pose proof (c67_unambiguous _ _ _ A B). discriminate.
Qed.
Example text_parsed : exists ss, length ss = 2 /\ parse_text (a_text ++ newline :: a_line) = Some ss.
Proof. eexists. split; [|vm_compute; reflexivity]. reflexivity. Qed.

(** Without a line break, what is put after a text may be taken for a part of it. *)
Example break_needed : exists s t a b, tokens_of s a /\ tokens_of t b /\ ~ tokens_of (s ++ t) (a ++ b) /\ ~ tokens_of (s ++ list_ascii_of_string " " ++ t) (a ++ b).
Proof.
  exists a_text, a_line, text_tokens, line_tokens. destruct text_has_tokens as (A & B & _). split; auto. split; auto.
  split; intros C; apply c67_tokens in C; vm_compute in C; discriminate.
Qed.
