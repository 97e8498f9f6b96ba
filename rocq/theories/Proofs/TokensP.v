(** Tokens are the longest that can be read. *)
From Coq Require Import String Ascii.
From Verif Require Export Proofs.TokenCharP.
From Coq Require Import Lia Nnat NArith.
Local Open Scope nat_scope.

Lemma same_words : forall s k, In (s, k) keywords <-> In (s, k) reserved.
Proof.
  intros s k. split; intros I; unfold keywords, reserved in *; cbn [In] in *; repeat destruct I as [[= <- <-]|I]; try contradiction; repeat first [left; reflexivity|right].
Qed.
Lemma lookup_none {A} (l : list (string * A)) s : lookup l s = None -> forall k, ~ In (s, k) l.
Proof. induction l as [|[x a] l IH]; intros H k; [auto|]. cbn [lookup] in H. destruct (String.eqb_spec x s) as [->|N]; [discriminate|]. intros [[= -> _]|I]; [auto|]. eapply IH; eauto. Qed.
Lemma word_reserved s k : In (s, k) reserved -> word s = k.
Proof. intros I. unfold reserved in I. cbn [In] in I. repeat destruct I as [[= <- <-]|I]; try contradiction; reflexivity. Qed.
Lemma word_name s : (forall k, ~ In (s, k) reserved) -> word s = KIdent s.
Proof. intros N. unfold word. destruct (lookup keywords s) as [k|] eqn:E; auto. apply lookup_some, same_words in E. destruct (N k E). Qed.
Lemma word_stands c w : is_alpha c = true -> forallb is_word w = true -> stands_for (c :: w) [word (string_of_list_ascii (c :: w))].
Proof.
  intros A W. apply alpha_in in A. apply (forall_forallb _ _ word_in) in W. unfold word. destruct (lookup keywords (string_of_list_ascii (c :: w))) as [k|] eqn:E.
  - apply lookup_some, same_words in E. apply v_reserved; auto.
  - apply v_name; auto. intros k I. apply same_words in I. eapply lookup_none; eauto.
Qed.
Lemma stands_lexeme w ks : stands_for w ks -> lexeme w.
Proof. intros [c I|b N|s k I|b N|ds NE F _|c w0 k I F _|c w0 I F _]; [apply w_blank|apply w_comment|eapply w_symbol|apply w_quoted|apply w_number|apply w_word|apply w_word]; eauto. Qed.

(** ** A turn takes the longest; but comments it takes with the end of the line *)
Definition comment_turn (s : list ascii) (ks : list Tok) (r : list ascii) : Prop :=
  ks = [] /\ exists b, ~ In newline b /\ (s = list_ascii_of_string "--" ++ b ++ newline :: r \/ (s = list_ascii_of_string "--" ++ b /\ r = [])).
Lemma comment_longest b r : (r = [] \/ exists r', r = newline :: r') -> longest (list_ascii_of_string "--" ++ b) r.
Proof.
  intros R w' s' L E. apply lexeme_first in L. destruct L as (c & w & -> & B). cbn in E. injection E as <- E.
  destruct B as [H ->|b' _ -> N|k H ->|d k H ->|b' H -> N|H W|H W]; try (cbn in *; lia); try discriminate.
  injection E as E. apply line_longest in E; auto. cbn. lia.
Qed.
Lemma turn_sound s ks r : turn s = Some (ks, r) -> comment_turn s ks r \/ exists w, s = w ++ r /\ stands_for w ks /\ longest w r.
Proof.
  unfold turn. destruct s as [|c s]; [discriminate|]. destruct (blank c) eqn:BL.
  { intros [= <- <-]. right. exists [c]. split; auto. split; [apply v_blank, blank_in; auto|]. destruct (blank_plain c BL) as (D & A & P1 & P2 & P3 & P4 & P5).
    intros w' s' L E. apply lexeme_first in L. destruct L as (x & w & -> & B). cbn in E. injection E as <- E.
    destruct B as [H ->|b' -> _ N|k H ->|d k H ->|b' -> _ N|H W|H W]; simpl; try lia; try congruence; try discriminate; try (rewrite P4 in H; discriminate). }
  destruct (Ascii.eqb c "-" && match s with d :: _ => Ascii.eqb d "-" | [] => false end)%bool eqn:CM.
  { intros [= <- <-]. left. apply andb_prop in CM. destruct CM as [C1 C2]. apply Ascii.eqb_eq in C1. subst c. destruct s as [|d s]; [discriminate|]. apply Ascii.eqb_eq in C2. subst d. split; auto.
    change (skip_line ("-"%char :: "-"%char :: s)) with (skip_line s). destruct (skip_is s) as (b & N & H). exists b. split; auto. destruct H as [H|[-> H]]; [left; cbn; do 2 f_equal; exact H|right; auto]. }
  destruct (single c) as [k|] eqn:SI.
  { intros [= <- <-]. right. exists [c]. split; auto. split; [apply single_symbol in SI; apply (v_symbol _ _ SI)|]. destruct (single_first c k SI) as (_ & D & A & P1 & P2 & P3).
    intros w' s' L E. apply lexeme_first in L. destruct L as (x & w & -> & B). cbn in E. injection E as <- E.
    destruct B as [H ->|b' -> _ N|k' H ->|d k' H ->|b' -> _ N|H W|H W]; simpl; try lia; try congruence; try discriminate; try (rewrite P3 in H; discriminate). }
  destruct (Ascii.eqb_spec c """") as [->|NQ].
  { destruct (quoted s) as [[a r1]|] eqn:Q; [|discriminate]. intros [= <- <-]. apply quoted_is in Q. destruct Q as [-> N]. right. exists (quote :: a ++ [quote]). split; [cbn [app]; rewrite <- app_assoc; auto|]. split; [apply v_quoted; auto|].
    intros w' s' L E. apply lexeme_first in L. destruct L as (x & w & -> & B). cbn [app] in E. injection E as <- E.
    destruct B as [H ->|b' H _ _|k' H ->|d k' H ->|b' _ -> N'|H W|H W]; simpl; try lia; try discriminate.
    rewrite <- !app_assoc in E. simpl in E. apply same_quoted in E; auto. subst. lia. }
  destruct (match s with d :: _ => double c d | [] => None end) as [k|] eqn:DO.
  { intros [= <- <-]. destruct s as [|d s]; [discriminate|]. right. exists [c; d]. split; auto. split; [apply double_symbol in DO; apply (v_symbol _ _ DO)|]. destruct (double_first c d k DO) as (_ & D & A & _ & _ & P1).
    intros w' s' L E. apply lexeme_first in L. destruct L as (x & w & -> & B). cbn in E. injection E as <- E.
    destruct B as [H ->|b' -> _ N|k' H ->|d' k' H ->|b' -> _ N|H W|H W]; simpl; try lia; try congruence; try discriminate. }
  destruct (alone c) as [k|] eqn:AL.
  { intros [= <- <-]. right. exists [c]. split; auto. split; [apply alone_symbol in AL; apply (v_symbol _ _ AL)|]. destruct (alone_first c k AL) as (_ & D & A & _ & _).
    intros w' s' L E. apply lexeme_first in L. destruct L as (x & w & -> & B). cbn in E. injection E as <- E.
    destruct B as [H ->|b' -> -> N|k' H ->|d' k' H ->|b' -> _ N|H W|H W]; simpl; try lia; try congruence; try discriminate.
    - subst s. discriminate.
    - subst s. cbn in DO. congruence. }
  destruct (is_digit c) eqn:DI.
  { destruct (digit_plain c DI) as (_ & A & P1 & P2 & P3 & P4 & P5). destruct (span_is is_digit (c :: s)) as (a & r1 & SP & E1 & FA & ST). rewrite SP. unfold parse_i64. destruct (number a <? 9223372036854775808)%N eqn:LT; [|discriminate]. intros [= <- <-].
    right. exists a. split; auto. destruct a as [|x a]; [simpl in E1; subst r1; simpl in ST; congruence|]. split.
    - rewrite (number_value _ FA) in *. apply v_number; [discriminate|apply (forall_forallb _ _ digit_in); auto|apply N.ltb_lt; auto].
    - simpl in E1. injection E1 as <- E1. intros w' s' L E. apply lexeme_first in L. destruct L as (x & w & -> & B). pose proof E as E0. cbn [app] in E. injection E as <- E.
      destruct B as [H ->|b' -> _ N|k' H ->|d' k' H ->|b' -> _ N|H W|H W]; simpl; try lia; try discriminate.
      + rewrite P4 in H. discriminate.
      + apply (run_longest is_digit (c :: a) r1 (c :: w) s' ST); auto. simpl. rewrite DI, W. auto.
      + congruence. }
  destruct (is_alpha c) eqn:AP; [|discriminate].
  destruct (alpha_plain c AP) as (_ & _ & P1 & P2 & P3 & P4 & P5). destruct (span_is is_word (c :: s)) as (a & r1 & SP & E1 & FA & ST). rewrite SP. intros [= <- <-].
  assert (WC : is_word c = true) by (unfold is_word; rewrite AP; auto).
  right. exists a. split; auto. destruct a as [|x a]; [simpl in E1; subst r1; simpl in ST; congruence|]. simpl in E1. injection E1 as <- E1. simpl in FA. apply andb_prop in FA. destruct FA as [_ FA]. split; [apply word_stands; auto|].
  intros w' s' L E. apply lexeme_first in L. destruct L as (x & w & -> & B). pose proof E as E0. cbn [app] in E. injection E as <- E.
  destruct B as [H ->|b' -> _ N|k' H ->|d' k' H ->|b' -> _ N|H W|H W]; simpl; try lia; try discriminate.
  - rewrite P4 in H. discriminate.
  - congruence.
  - apply (run_longest is_word (c :: a) r1 (c :: w) s' ST); auto. simpl. rewrite WC, W. auto.
Qed.
Lemma turn_shorter s ks r : turn s = Some (ks, r) -> length r < length s.
Proof.
  intros H. apply turn_sound in H. destruct H as [(_ & b & _ & [-> | [-> ->]])|(w & -> & S & _)].
  - cbn. rewrite !app_length. cbn. lia.
  - cbn. lia.
  - apply stands_lexeme, lexeme_first in S. destruct S as (c & w' & -> & _). rewrite app_length. cbn. lia.
Qed.
Lemma not_longer w s w' s' : longest w s -> w ++ s = w' ++ s' -> length w < length w' -> ~ lexeme w'.
Proof. intros L E LT X. specialize (L w' s' X E). lia. Qed.
Lemma turn_complete w s ks : stands_for w ks -> longest w s -> (exists b, ~ In newline b /\ w = list_ascii_of_string "--" ++ b) \/ turn (w ++ s) = Some (ks, s).
Proof.
  intros S L. pose proof L as L0. destruct S as [c I|b N|x k I|b N|ds NE F LT|c w k A W I|c w A W I].
  - right. apply blank_in in I. cbn. rewrite I. auto.
  - left. exists b. auto.
  - right. pose proof (symbols_are x k I) as Y. set (w := list_ascii_of_string x) in *. destruct w as [|c [|d [|? ?]]]; try discriminate; cbn in Y.
    + cbn [app turn]. destruct (single c) as [k1|] eqn:SI.
      * injection Y as ->. destruct (single_first c k SI) as (-> & _ & _ & -> & _ & _). auto.
      * destruct (alone_first c k Y) as (-> & _ & _ & _ & Q). unfold quote in Q. rewrite Q.
        destruct s as [|d s]; [rewrite andb_false_r; rewrite Y; auto|].
        assert (CM : (Ascii.eqb c "-" && Ascii.eqb d "-")%bool = false).
        { destruct (Ascii.eqb_spec c "-") as [->|_]; auto. destruct (Ascii.eqb_spec d "-") as [->|_]; auto. exfalso. apply (not_longer _ _ ["-"; "-"]%char s L0); [auto|cbn; lia|apply (w_comment []); auto]. }
        rewrite CM. destruct (double c d) as [k2|] eqn:DO; [|rewrite Y; auto]. exfalso. apply (not_longer _ _ [c; d] s L0); [auto|cbn; lia|]. apply double_symbol in DO. apply (w_symbol _ _ DO).
    + cbn [app turn]. destruct (double_first c d k Y) as (-> & _ & _ & -> & Q & ->). unfold quote in Q. rewrite Q. cbn [andb]. rewrite Y. auto.
  - right. cbn [app]. rewrite <- app_assoc. cbn [app]. unfold turn. change (blank quote) with false. change (Ascii.eqb quote "-") with false. change (single quote) with (@None Tok). change (Ascii.eqb quote """") with true. cbv iota. cbn [andb]. rewrite (quoted_app b s N). auto.
  - right. apply (forall_forallb _ _ digit_in) in F. assert (ST : stops is_digit s).
    { destruct s as [|d s]; cbn; auto. destruct (is_digit d) eqn:D; auto. exfalso. apply (not_longer _ _ (ds ++ [d]) s L0); [rewrite <- app_assoc; auto|rewrite app_length; cbn; lia|]. apply w_number; [destruct ds; discriminate|]. apply (forall_forallb _ _ digit_in). rewrite forallb_app, F. cbn. rewrite D. auto. }
    pose proof (span_app is_digit ds s F ST) as SP. destruct ds as [|c ds]; [contradiction|]. pose proof F as F0. cbn in F0. apply andb_prop in F0. destruct F0 as [D _]. destruct (digit_plain c D) as (B & _ & P1 & P2 & P3 & P4 & P5).
    cbn [app] in *. unfold turn. rewrite B, P1, P2. cbn [andb]. unfold quote in P3. rewrite P3, P5, D, SP. unfold parse_i64. rewrite (number_value _ F). change 9223372036854775808%N with (2 ^ 63)%N. apply N.ltb_lt in LT. rewrite LT.
    destruct (ds ++ s) as [|d l]; [|rewrite (P4 d)]; auto.
  - right. apply word_reserved in I. subst k.
    apply alpha_in in A. apply (forall_forallb _ _ word_in) in W. assert (WC : is_word c = true) by (unfold is_word; rewrite A; auto). assert (ST : stops is_word s).
    { destruct s as [|d s]; cbn; auto. destruct (is_word d) eqn:D; auto. exfalso. apply (not_longer _ _ (c :: w ++ [d]) s L0); [cbn [app]; rewrite <- app_assoc; auto|cbn; rewrite app_length; cbn; lia|]. apply w_word; [apply alpha_in; auto|]. apply (forall_forallb _ _ word_in). rewrite forallb_app, W. cbn. rewrite D. auto. }
    assert (FA : forallb is_word (c :: w) = true) by (cbn; rewrite WC, W; auto). pose proof (span_app is_word (c :: w) s FA ST) as SP. destruct (alpha_plain c A) as (B & D & P1 & P2 & P3 & P4 & P5).
    cbn [app] in *. unfold turn. rewrite B, P1, P2. cbn [andb]. unfold quote in P3. rewrite P3, P5, D, A, SP. destruct (w ++ s) as [|d l]; [|rewrite (P4 d)]; auto.
  - right. apply word_name in I. rewrite <- I.
    apply alpha_in in A. apply (forall_forallb _ _ word_in) in W. assert (WC : is_word c = true) by (unfold is_word; rewrite A; auto). assert (ST : stops is_word s).
    { destruct s as [|d s]; cbn; auto. destruct (is_word d) eqn:D; auto. exfalso. apply (not_longer _ _ (c :: w ++ [d]) s L0); [cbn [app]; rewrite <- app_assoc; auto|cbn; rewrite app_length; cbn; lia|]. apply w_word; [apply alpha_in; auto|]. apply (forall_forallb _ _ word_in). rewrite forallb_app, W. cbn. rewrite D. auto. }
    assert (FA : forallb is_word (c :: w) = true) by (cbn; rewrite WC, W; auto). pose proof (span_app is_word (c :: w) s FA ST) as SP. destruct (alpha_plain c A) as (B & D & P1 & P2 & P3 & P4 & P5).
    cbn [app] in *. unfold turn. rewrite B, P1, P2. cbn [andb]. unfold quote in P3. rewrite P3, P5, D, A, SP. destruct (w ++ s) as [|d l]; [|rewrite (P4 d)]; auto.
Qed.
Lemma newline_longest r : longest [newline] r.
Proof.
  intros w' s' L E. apply lexeme_first in L. destruct L as (x & w & -> & B). cbn in E. injection E as <- E.
  destruct B as [H ->|b' H _ N|k H ->|d k H ->|b' H _ N|H W|H W]; simpl; try lia; try discriminate.
Qed.
Lemma turns_sound n : forall s ts, turns n s = Some ts -> exists us, ts = us ++ [KEof] /\ tokens_of s us.
Proof.
  induction n as [|n IH]; intros s ts H; [discriminate|]. cbn [turns] in H. destruct s as [|c s]; [injection H as <-; exists []; split; auto; constructor|].
  destruct (turn (c :: s)) as [[ks r]|] eqn:T; [|discriminate]. destruct (turns n r) as [ts1|] eqn:E; [|discriminate]. injection H as <-. destruct (IH r ts1 E) as (us & -> & U). exists (ks ++ us). split; [rewrite app_assoc; auto|].
  apply turn_sound in T. destruct T as [(-> & b & N & [Q|[Q ->]])|(w & Q & S & L)]; rewrite Q.
  - rewrite app_assoc. apply (t_next _ (newline :: r) [] us); [apply v_comment; auto|apply comment_longest; eauto|]. apply (t_next [newline] r [] us); auto; [apply v_blank; simpl; auto|apply newline_longest].
  - rewrite <- (app_nil_r (list_ascii_of_string "--" ++ b)). apply (t_next _ [] [] us); [apply v_comment; auto|apply comment_longest; auto|auto].
  - apply t_next; auto.
Qed.
Lemma newline_turn n r us : turns (S n) (newline :: r) = Some us -> turns n r = Some us.
Proof. cbn. destruct (turns n r); auto. Qed.
Lemma turns_complete s us : tokens_of s us -> forall n, n > length s -> turns n s = Some (us ++ [KEof]).
Proof.
  induction 1 as [|w s ks ts S L T IH]; intros n LE; (destruct n as [|n]; [cbn in LE; lia|]); [auto|]. rewrite app_length in LE.
  destruct (turn_complete w s ks S L) as [(b & N & ->)|E].
  - assert (KS : ks = []).
    { inversion S as [c I E1|b1 N1 E1|x k I E1|b1 N1 E1|ds NE F LT E1|c w k A W I E1|c w A W I E1]; subst; auto; exfalso; try discriminate.
      - apply symbols_are in I. rewrite E1 in I. destruct b; discriminate.
      - inversion F as [|? ? D _]; subst. apply digit_in in D. discriminate.
      - apply alpha_in in A. discriminate.
      - apply alpha_in in A. discriminate. }
    subst ks. cbn [list_ascii_of_string app length] in LE |- *. cbn [turns]. change (turn ("-"%char :: "-"%char :: b ++ s)) with (Some (@nil Tok, skip_line (b ++ s))). cbv iota beta. cbn [app].
    assert (R : s = [] \/ exists r, s = newline :: r).
    { destruct s as [|d s]; auto. right. exists s. destruct (Ascii.eqb_spec d newline) as [->|ND]; auto. exfalso. apply (not_longer _ _ (list_ascii_of_string "--" ++ b ++ [d]) s L); [cbn; rewrite <- app_assoc; auto|cbn; rewrite app_length; cbn; lia|]. apply w_comment. rewrite in_app_iff. cbn. intros [Q|[Q|[]]]; auto. }
    destruct R as [-> | (r & ->)].
    + rewrite app_nil_r, (skip_all b N). specialize (IH n). cbn in LE. rewrite IH by (cbn; lia). auto.
    + rewrite (skip_app b r N). cbn in LE. rewrite (newline_turn n r (ts ++ [KEof])); auto. apply IH. cbn. lia.
  - pose proof (turn_shorter _ _ _ E) as SH. rewrite app_length in SH. cbn [turns]. destruct (w ++ s) as [|c l]; [discriminate|]. rewrite E, IH by lia. rewrite app_assoc. auto.
Qed.
