(** Characters, symbols and lexemes of the pipe syntax. *)
From Coq Require Import String Ascii.
From Verif Require Export Spec.TokensSpec.
From Coq Require Import Lia Nnat NArith.
Local Open Scope nat_scope.

(** ** Characters *)
Ltac each_char c := destruct c as [[|] [|] [|] [|] [|] [|] [|] [|]].
Definition among (l : list ascii) (c : ascii) : bool := existsb (Ascii.eqb c) l.
Lemma among_in l c : among l c = true <-> In c l.
Proof. unfold among. rewrite existsb_exists. split; [intros (x & I & E); apply Ascii.eqb_eq in E; subst; auto|intros I; exists c; split; auto; apply Ascii.eqb_refl]. Qed.
Lemma digit_among c : is_digit c = among digits c. Proof. each_char c; vm_compute; reflexivity. Qed.
Lemma alpha_among c : is_alpha c = among letters c. Proof. each_char c; vm_compute; reflexivity. Qed.
Lemma word_among c : is_word c = among (letters ++ digits) c. Proof. each_char c; vm_compute; reflexivity. Qed.
Lemma blank_among c : blank c = among blanks c. Proof. each_char c; vm_compute; reflexivity. Qed.
Lemma digit_in c : is_digit c = true <-> In c digits. Proof. rewrite digit_among. apply among_in. Qed.
Lemma alpha_in c : is_alpha c = true <-> In c letters. Proof. rewrite alpha_among. apply among_in. Qed.
Lemma word_in c : is_word c = true <-> In c (letters ++ digits). Proof. rewrite word_among. apply among_in. Qed.
Lemma blank_in c : blank c = true <-> In c blanks. Proof. rewrite blank_among. apply among_in. Qed.
Lemma digit_value c : is_digit c = true -> nat_of_ascii c - 48 = place_of c digits.
Proof. each_char c; vm_compute; intros; try discriminate; reflexivity. Qed.
(** the kinds of characters are disjoint *)
Definition plain (c : ascii) : Prop := Ascii.eqb c "-" = false /\ single c = None /\ Ascii.eqb c quote = false /\ (forall d, double c d = None) /\ alone c = None.
Lemma digit_plain c : is_digit c = true -> blank c = false /\ is_alpha c = false /\ plain c.
Proof. unfold plain. each_char c; vm_compute; intros; try discriminate; repeat match goal with |- _ /\ _ => split end; auto. Qed.
Lemma alpha_plain c : is_alpha c = true -> blank c = false /\ is_digit c = false /\ plain c.
Proof. unfold plain. each_char c; vm_compute; intros; try discriminate; repeat match goal with |- _ /\ _ => split end; auto. Qed.
Lemma blank_plain c : blank c = true -> is_digit c = false /\ is_alpha c = false /\ plain c.
Proof. unfold plain. each_char c; vm_compute; intros; try discriminate; repeat match goal with |- _ /\ _ => split end; auto. Qed.

(** ** Symbols *)
Definition symbol_of (w : list ascii) : option Tok := match w with [c] => match single c with Some k => Some k | None => alone c end | [c; d] => double c d | _ => None end.
Lemma symbols_are s k : In (s, k) symbols -> symbol_of (list_ascii_of_string s) = Some k.
Proof. intros I. unfold symbols in I. cbn [In] in I. repeat destruct I as [[= <- <-]|I]; try contradiction; reflexivity. Qed.
Ltac find_symbol := repeat first [left; reflexivity|right].
Lemma single_symbol c k : single c = Some k -> In (string_of_list_ascii [c], k) symbols.
Proof. each_char c; cbn; intros H; try discriminate; injection H as <-; find_symbol. Qed.
Lemma alone_symbol c k : alone c = Some k -> In (string_of_list_ascii [c], k) symbols.
Proof. each_char c; cbn; intros H; try discriminate; injection H as <-; find_symbol. Qed.
Lemma double_symbol c d k : double c d = Some k -> In (string_of_list_ascii [c; d], k) symbols.
Proof. each_char c; cbn; try discriminate; each_char d; cbn; intros H; try discriminate; injection H as <-; find_symbol. Qed.
Lemma single_first c k : single c = Some k -> blank c = false /\ is_digit c = false /\ is_alpha c = false /\ Ascii.eqb c "-" = false /\ Ascii.eqb c quote = false /\ (forall d, double c d = None).
Proof. each_char c; cbn; intros H; try discriminate; repeat match goal with |- _ /\ _ => split end; auto. Qed.
Lemma alone_first c k : alone c = Some k -> blank c = false /\ is_digit c = false /\ is_alpha c = false /\ single c = None /\ Ascii.eqb c quote = false.
Proof. each_char c; cbn; intros H; try discriminate; repeat match goal with |- _ /\ _ => split end; auto. Qed.
Lemma double_first c d k : double c d = Some k -> blank c = false /\ is_digit c = false /\ is_alpha c = false /\ single c = None /\ Ascii.eqb c quote = false /\ Ascii.eqb c "-" = false.
Proof. each_char c; cbn; intros H; try discriminate; repeat match goal with |- _ /\ _ => split end; auto. Qed.

(** ** What a lexeme is, by its first character *)
Inductive by_first (c : ascii) (w : list ascii) : Prop :=
| b_blank : blank c = true -> w = [] -> by_first c w
| b_comment b : c = "-"%char -> w = "-"%char :: b -> ~ In newline b -> by_first c w
| b_one k : symbol_of [c] = Some k -> w = [] -> by_first c w
| b_two d k : double c d = Some k -> w = [d] -> by_first c w
| b_quote b : c = quote -> w = b ++ [quote] -> ~ In quote b -> by_first c w
| b_number : is_digit c = true -> forallb is_digit w = true -> by_first c w
| b_word : is_alpha c = true -> forallb is_word w = true -> by_first c w.
Lemma forall_forallb (f : ascii -> bool) l (X : forall c, f c = true <-> In c l) w : Forall (fun c => In c l) w <-> forallb f w = true.
Proof. rewrite forallb_forall, Forall_forall. split; intros H x I; apply X; auto. Qed.
Lemma lexeme_first w : lexeme w -> exists c w', w = c :: w' /\ by_first c w'.
Proof.
  intros [c I|b N|s k I|b N|ds NE F|c w0 I F].
  - exists c, []. split; auto. apply b_blank; auto. apply blank_in. auto.
  - eexists _, _. split; [reflexivity|]. eapply b_comment; eauto.
  - apply symbols_are in I. destruct (list_ascii_of_string s) as [|c [|d [|x l]]]; try discriminate.
    + exists c, []. split; auto. eapply b_one; eauto.
    + exists c, [d]. split; auto. eapply b_two; eauto.
  - eexists _, _. split; [reflexivity|]. eapply b_quote; eauto.
  - destruct ds as [|c ds]; [contradiction|]. inversion F; subst. exists c, ds. split; auto. apply b_number; [apply digit_in; auto|apply (forall_forallb _ _ digit_in); auto].
  - exists c, w0. split; auto. apply b_word; [apply alpha_in; auto|apply (forall_forallb _ _ word_in); auto].
Qed.

(** ** The loops *)
Definition stops (f : ascii -> bool) (s : list ascii) : Prop := match s with [] => True | c :: _ => f c = false end.
Lemma span_is f s : exists a r, span f s = (a, r) /\ s = a ++ r /\ forallb f a = true /\ stops f r.
Proof.
  induction s as [|c s (a & r & E & -> & A & R)]; [exists [], []; simpl; auto|]. cbn [span]. destruct (f c) eqn:F.
  - rewrite E. exists (c :: a), r. simpl. rewrite F. auto.
  - exists [], (c :: a ++ r). simpl. auto.
Qed.
Lemma span_app f a r : forallb f a = true -> stops f r -> span f (a ++ r) = (a, r).
Proof. induction a as [|c a IH]; simpl; intros A R; [destruct r as [|c r]; simpl in *; [auto|rewrite R; auto]|]. apply andb_prop in A. destruct A as [A1 A2]. rewrite A1, (IH A2 R). auto. Qed.
Lemma run_longest f a r w t : stops f r -> forallb f w = true -> a ++ r = w ++ t -> length w <= length a.
Proof.
  revert w. induction a as [|c a IH]; intros w R W E; simpl in *.
  - destruct w as [|x w]; simpl; [lia|]. subst r. simpl in *. rewrite R in W. discriminate.
  - destruct w as [|x w]; simpl; [lia|]. injection E as <- E. simpl in W. apply andb_prop in W. destruct W as [_ W]. specialize (IH w R W E). lia.
Qed.
Lemma quoted_app b r : ~ In quote b -> quoted (b ++ quote :: r) = Some (b, r).
Proof. induction b as [|c b IH]; intros N; [reflexivity|]. cbn [app quoted]. destruct (Ascii.eqb_spec c """") as [->|_]; [destruct N; left; reflexivity|]. rewrite IH; auto. intros I. apply N. right. auto. Qed.
Lemma quoted_is s b r : quoted s = Some (b, r) -> s = b ++ quote :: r /\ ~ In quote b.
Proof.
  revert b. induction s as [|c s IH]; intros b H; [discriminate|]. cbn [quoted] in H. destruct (Ascii.eqb_spec c """") as [->|N].
  - injection H as <- <-. split; auto.
  - destruct (quoted s) as [[a r1]|]; [|discriminate]. injection H as <- <-. destruct (IH a eq_refl) as [-> I]. split; auto. intros [Q|Q]; auto.
Qed.
Lemma same_quoted b r b' r' : ~ In quote b -> ~ In quote b' -> b ++ quote :: r = b' ++ quote :: r' -> b = b'.
Proof. intros N N' E. pose proof (quoted_app b r N) as A. rewrite E, (quoted_app b' r' N') in A. injection A as -> _. auto. Qed.
Lemma skip_is s : exists b, ~ In newline b /\ (s = b ++ newline :: skip_line s \/ (s = b /\ skip_line s = [])).
Proof.
  induction s as [|c s (b & N & H)]; [exists []; auto|]. cbn [skip_line]. destruct (Ascii.eqb_spec c "010") as [->|NE].
  - exists []. auto.
  - exists (c :: b). split; [intros [Q|Q]; auto|]. destruct H as [H|[H1 H2]]; [left; cbn [app]; rewrite <- H; auto|right; subst; auto].
Qed.
Lemma skip_app b s : ~ In newline b -> skip_line (b ++ newline :: s) = s.
Proof. induction b as [|c b IH]; intros N; [reflexivity|]. cbn [app skip_line]. destruct (Ascii.eqb_spec c "010") as [->|_]; [destruct N; left; reflexivity|]. apply IH. intros I. apply N. right. auto. Qed.
Lemma skip_all b : ~ In newline b -> skip_line b = [].
Proof. induction b as [|c b IH]; intros N; [reflexivity|]. cbn [skip_line]. destruct (Ascii.eqb_spec c "010") as [->|_]; [destruct N; left; reflexivity|]. apply IH. intros I. apply N. right. auto. Qed.
Lemma line_longest b r w t : ~ In newline w -> (r = [] \/ exists r', r = newline :: r') -> b ++ r = w ++ t -> length w <= length b.
Proof.
  intros N R E. apply (run_longest (fun c => negb (Ascii.eqb c newline)) b r w t).
  - destruct R as [-> | (r' & ->)]; simpl; auto.
  - apply forallb_forall. intros x I. destruct (Ascii.eqb_spec x newline) as [->|_]; auto.
  - auto.
Qed.
Lemma number_value ds : forallb is_digit ds = true -> number ds = value ds.
Proof.
  unfold number. assert (G : forall v, forallb is_digit ds = true -> fold_left (fun v c => (10 * v + N.of_nat (nat_of_ascii c - 48))%N) ds v = (v * 10 ^ N.of_nat (length ds) + value ds)%N).
  { induction ds as [|c ds IH]; intros v D; cbn [fold_left value length]; [simpl; lia|]. simpl in D. apply andb_prop in D. destruct D as [D1 D2]. rewrite IH by auto. rewrite (digit_value c D1), Nat2N.inj_succ, N.pow_succ_r'. lia. }
  intros D. rewrite G by auto. lia.
Qed.
Lemma lookup_some {A} (l : list (string * A)) s k : lookup l s = Some k -> In (s, k) l.
Proof. induction l as [|[x a] l IH]; [discriminate|]. cbn [lookup]. destruct (String.eqb_spec x s) as [->|_]; [intros [= ->]; left; auto|right; auto]. Qed.
