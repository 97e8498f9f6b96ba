(** C65: scalar terms in the pipe syntax are read as its grammar says, and mean what is written. *)
From Coq Require Import String.
From Verif Require Import Proofs.PipeProperP.
From Coq Require Import Lia.
Local Open Scope nat_scope.

Definition knowing (cons : list (string * (nat * nat))) : Ctx := {| cx_cons := cons; cx_binders := []; cx_depth := 0 |}.
Lemma knows_nothing cons : knows (knowing cons) [].
Proof. intros x. split; [contradiction|intros (l & f & [=])]. Qed.

(** The parser accepts a text, followed by something that does not continue it, exactly if the text is of the
    grammar and everything in it is known. *)
Theorem c65_accepts cons ts k rest : ends (k :: rest) ->
  (exists t, p_logic (enough (ts ++ k :: rest)) (knowing cons) (ts ++ k :: rest) = Some (t, k :: rest)) <-> exists s, reads LLogic ts s /\ proper cons [] s.
Proof.
  intros EN. split.
  - intros [t H]. apply parse_exact in H; auto. destruct H as (s & R & E). exists s. split; auto. apply (elab_proper s (knowing cons) [] (knows_nothing cons)). eauto.
  - intros (s & R & P). apply (elab_proper s (knowing cons) [] (knows_nothing cons)) in P. destruct P as [t E]. exists t. apply parse_exact; eauto.
Qed.
Print Assumptions c65_accepts.

(** However an accepted text is read by the grammar, the term evaluates to what is written. *)
Theorem c65_means cons ts k rest s : ends (k :: rest) -> tags_fit cons -> reads LLogic ts s -> proper cons [] s ->
  exists t, p_logic (enough (ts ++ k :: rest)) (knowing cons) (ts ++ k :: rest) = Some (t, k :: rest) /\
    forall rows, safe cons (length rows) s -> eval t rows = meaning cons [] rows s.
Proof.
  intros EN TF R P. apply (elab_proper s (knowing cons) [] (knows_nothing cons)) in P. destruct P as [t E]. exists t. split; [apply parse_exact; eauto|].
  intros rows S. apply (elab_means s (knowing cons) [] rows (length rows) t TF); auto. split; [simpl; lia|constructor].
Qed.
Print Assumptions c65_means.

(** So two readings of a text mean the same. *)
Theorem c65_unambiguous cons ts s1 s2 rows : tags_fit cons -> reads LLogic ts s1 -> reads LLogic ts s2 -> proper cons [] s1 -> proper cons [] s2 ->
  safe cons (length rows) s1 -> safe cons (length rows) s2 -> meaning cons [] rows s1 = meaning cons [] rows s2.
Proof.
  intros TF R1 R2 P1 P2 S1 S2. assert (EN : ends [KEof]) by (simpl; intros H; repeat destruct H as [H|H]; try discriminate; contradiction).
  destruct (c65_means cons ts KEof [] s1 EN TF R1 P1) as (t1 & E1 & M1). destruct (c65_means cons ts KEof [] s2 EN TF R2 P2) as (t2 & E2 & M2). rewrite E1 in E2. injection E2 as <-. rewrite <- M1, <- M2; auto.
Qed.
Print Assumptions c65_unambiguous.

(** A term that is parsed by itself: the same, without constructors.  What follows is ignored. *)
Theorem c65_term ts k rest s : ends (k :: rest) -> reads LLogic ts s -> proper [] [] s ->
  exists t, parse_term (ts ++ k :: rest) = Some t /\ forall rows, safe [] (length rows) s -> eval t rows = meaning [] [] rows s.
Proof.
  intros EN R P. assert (TF : tags_fit []) by (intros c tag ar [=]). destruct (c65_means [] ts k rest s EN TF R P) as (t & E & M). exists t. split; auto. unfold parse_term. change no_context with (knowing []). rewrite E. auto.
Qed.
Print Assumptions c65_term.

(** Parsing by itself does not refuse text after the term: not every text that is accepted is a term. *)
Theorem c65_whole_text_refuted : exists ts t, parse_term (ts ++ [KEof]) = Some t /\ ~ exists s, reads LLogic ts s /\ proper [] [] s.
Proof.
  exists [KInt 1; KRParen; KInt 2], (TInt 1). split; [reflexivity|]. intros H.
  assert (EN : ends [KEof]) by (simpl; intros Q; repeat destruct Q as [Q|Q]; try discriminate; contradiction).
  apply (c65_accepts [] _ KEof []) in H; auto. destruct H as [t H]. vm_compute in H. discriminate.
Qed.
Print Assumptions c65_whole_text_refuted.

(** ** A case with a gap *)
(** [case $0 { A(a) => case $1 { B(b) => b, _ => a }, B(b) => b }], where [A] has tag 0 and [B] has tag 1 *)
Definition two_constructors : list (string * (nat * nat)) := [("A", (0, 1)); ("B", (1, 1))]%string.
Definition inner_text : list Tok := [KCase; KDollar; KInt 1; KLBrace; KIdent "B"; KLParen; KIdent "b"; KRParen; KFatArrow; KIdent "b"; KComma; KIdent "_"; KFatArrow; KIdent "a"; KRBrace]%string.
Definition outer_text : list Tok :=
  [KCase; KDollar; KInt 0; KLBrace; KIdent "A"; KLParen; KIdent "a"; KRParen; KFatArrow]%string ++ inner_text ++ [KComma; KIdent "B"; KLParen; KIdent "b"; KRParen; KFatArrow; KIdent "b"; KRBrace]%string.
Definition inner_term : PT := (PCase (PRow 1) [(Ctor "B" ["b"], PName "b"); (Default, PName "a")])%string.
Definition outer_term : PT := (PCase (PRow 0) [(Ctor "A" ["a"], inner_term); (Ctor "B" ["b"], PName "b")])%string.
Lemma up_primary ts t : reads LPrimary ts t -> reads LLogic ts t.
Proof. intros R. apply g_logic, g_one, g_sum, g_product, g_unary. auto. Qed.
Lemma outer_reads : reads LLogic outer_text outer_term.
Proof.
  apply up_primary. apply (g_case [KDollar; KInt 0] (PRow 0)
    ([KIdent "A"; KLParen; KIdent "a"; KRParen]%string ++ KFatArrow :: inner_text ++ [KComma] ++ [KIdent "B"; KLParen; KIdent "b"; KRParen]%string ++ KFatArrow :: [KIdent "b"%string] ++ [] ++ []) [(Ctor "A" ["a"], inner_term); (Ctor "B" ["b"], PName "b")]%string).
  - apply up_primary. constructor.
  - apply (g_arm (Ctor "A" ["a"]) inner_text inner_term [KComma])%string; [|auto| |intros c xs [= <- <-]; discriminate].
    + apply up_primary. apply (g_case [KDollar; KInt 1] (PRow 1)
        ([KIdent "B"; KLParen; KIdent "b"; KRParen]%string ++ KFatArrow :: [KIdent "b"%string] ++ [KComma] ++ [KIdent "_"%string] ++ KFatArrow :: [KIdent "a"%string] ++ [] ++ []) [(Ctor "B" ["b"], PName "b"); (Default, PName "a")]%string); [apply up_primary; constructor|].
      apply (g_arm (Ctor "B" ["b"]) [KIdent "b"] (PName "b") [KComma])%string; [apply up_primary; constructor|auto| |intros c xs [= <- <-]; discriminate].
      apply (g_arm Default [KIdent "a"] (PName "a") [] [] [])%string; [apply up_primary; constructor|auto|constructor|discriminate].
    + apply (g_arm (Ctor "B" ["b"]) [KIdent "b"] (PName "b") [] [] [])%string; [apply up_primary; constructor|auto|constructor|intros c xs [= <- <-]; discriminate].
Qed.
Lemma outer_gapless : gapless two_constructors [(Ctor "A" ["a"], inner_term); (Ctor "B" ["b"], PName "b")]%string.
Proof.
  intros c xs x tag ar t I L LT. simpl in I. destruct I as [[= <- <- <-]|[[= <- <- <-]|[]]]; injection L as <- <-; [lia|]. destruct t as [|t]; [|lia]. exists "A"%string, ["a"]%string, inner_term, 1. simpl. auto.
Qed.
Lemma outer_proper : proper two_constructors [] outer_term.
Proof.
  simpl. repeat match goal with |- _ /\ _ => split end; auto; try (eexists; reflexivity).
  - right. exists (PName "a"%string). simpl. auto.
  - left. exact outer_gapless.
Qed.
(** The tags that a case leaves out get copies of its default; but the default was read without the payload that
    is there for an arm, so a name from outside stands for the wrong value. *)
Theorem c65_gap_refuted : exists t rows, p_logic (enough (outer_text ++ [KEof])) (knowing two_constructors) (outer_text ++ [KEof]) = Some (t, [KEof]) /\
  meaning two_constructors [] rows outer_term = Some (VInt 5) /\ eval t rows = Some (VInt 7).
Proof.
  destruct (p_logic (enough (outer_text ++ [KEof])) (knowing two_constructors) (outer_text ++ [KEof])) as [[t r]|] eqn:E; vm_compute in E; [|discriminate]. injection E as <- <-.
  eexists _, [VVariant 0 (VTuple [VInt 5]); VVariant 0 (VTuple [VInt 7])]. split; [reflexivity|]. split; reflexivity.
Qed.
Print Assumptions c65_gap_refuted.

(** ** A text that meets the conditions *)
(** [case $0 { A(a) => a + $1[0] * 2, _ => 9 }] *)
Definition small_text : list Tok :=
  [KCase; KDollar; KInt 0; KLBrace; KIdent "A"; KLParen; KIdent "a"; KRParen; KFatArrow; KIdent "a"; KPlus; KDollar; KInt 1; KLBracket; KInt 0; KRBracket; KStar; KInt 2; KComma; KIdent "_"; KFatArrow; KInt 9; KRBrace]%string.
Definition small_term : PT := (PCase (PRow 0) [(Ctor "A" ["a"], PBin BAdd (PName "a") (PBin BMul (PProj (PRow 1) 0) (PInt 2))); (Default, PInt 9)])%string.
Example small_reads : reads LLogic small_text small_term.
Proof.
  apply up_primary. apply (g_case [KDollar; KInt 0] (PRow 0)
    ([KIdent "A"; KLParen; KIdent "a"; KRParen]%string ++ KFatArrow :: ([KIdent "a"%string] ++ KPlus :: ((([KDollar; KInt 1] ++ [KLBracket; KInt 0; KRBracket]) ++ KStar :: [KInt 2]))) ++ [KComma] ++ [KIdent "_"%string] ++ KFatArrow :: [KInt 9] ++ [] ++ [])
    [(Ctor "A" ["a"], PBin BAdd (PName "a") (PBin BMul (PProj (PRow 1) 0) (PInt 2))); (Default, PInt 9)]%string); [apply up_primary; constructor|].
  apply (g_arm (Ctor "A" ["a"])%string _ _ [KComma]); [|auto| |intros c xs [= <- <-]; discriminate].
  - apply g_logic, g_one. apply (g_add [KIdent "a"] (PName "a") KPlus BAdd)%string; [apply g_sum, g_product, g_unary; constructor|simpl; auto|].
    apply g_mul; [apply g_product, g_unary, g_proj; constructor|apply g_unary; constructor].
  - apply (g_arm Default [KInt 9] (PInt 9) [] [] []); [apply up_primary; constructor|auto|constructor|discriminate].
Qed.
Example small_proper : proper two_constructors [] small_term.
Proof. simpl. repeat match goal with |- _ /\ _ => split end; auto; [eexists; reflexivity|right; exists (PInt 9); simpl; auto]. Qed.
Example small_safe : safe two_constructors 2 small_term.
Proof. simpl. repeat match goal with |- _ /\ _ => split end; auto. right. intros d [[=]|[[= <-]|[]]]. simpl. auto. Qed.
Example fits : tags_fit two_constructors.
Proof. intros c tag ar H. unfold two_constructors in H. cbn [lookup] in H. repeat match type of H with (if ?b then _ else _) = _ => destruct b end; inversion H; lia. Qed.
Example small_means : meaning two_constructors [] [VVariant 0 (VTuple [VInt 5]); VTuple [VInt 7]] small_term = Some (VInt 19). Proof. reflexivity. Qed.
Example small_default : meaning two_constructors [] [VVariant 1 (VTuple [VInt 5]); VTuple [VInt 7]] small_term = Some (VInt 9). Proof. reflexivity. Qed.
