(** Proofs about [pack]. *)
From Coq Require Import Lia.
From Verif Require Import Spec.ChunkSpec.

Lemma graded_nil t : graded t [].
Proof. split; [constructor|]. intros [|i] a b; discriminate. Qed.
Lemma graded_snoc t l n : graded t l -> n <= t -> l = [] \/ t < last l 0 + n -> graded t (l ++ [n]).
Proof.
  intros [H1 H2] Hn Hl. split; [apply Forall_app; auto|].
  intros i a b Ha Hb. assert (Hi : S i < length (l ++ [n])) by (apply nth_error_Some; congruence). rewrite app_length in Hi. cbn in Hi.
  destruct (Nat.eq_dec (S i) (length l)) as [Ei|Ei].
  - rewrite nth_error_app2 in Hb by lia. rewrite Ei, Nat.sub_diag in Hb. injection Hb as <-.
    destruct Hl as [->|Hl]; [cbn in Ei; lia|]. rewrite nth_error_app1 in Ha by lia.
    destruct l as [|x l0] using rev_ind; [cbn in Ei; lia|]. rewrite last_last in Hl. rewrite app_length in Ei. cbn in Ei. assert (i = length l0) by lia. subst i.
    rewrite nth_error_app2, Nat.sub_diag in Ha by lia. injection Ha as <-. exact Hl.
  - rewrite nth_error_app1 in Ha by lia. rewrite nth_error_app1 in Hb by lia. eauto.
Qed.
Lemma graded_replace t l m n : graded t (l ++ [m]) -> m <= n -> n <= t -> graded t (l ++ [n]).
Proof.
  intros H Hm Hn. assert (G : graded t l).
  { destruct H as [H1 H2]. apply Forall_app in H1. destruct H1 as [H1 _]. split; auto. intros i a b Ha Hb. apply (H2 i).
    - rewrite nth_error_app1; auto. apply nth_error_Some. congruence.
    - rewrite nth_error_app1; auto. apply nth_error_Some. congruence. }
  apply graded_snoc; auto. destruct l as [|x l] using rev_ind; auto. right. rewrite last_last.
  destruct H as [_ H2]. assert (H := H2 (length l) x m). rewrite <- app_assoc in H. cbn [app] in H.
  rewrite nth_error_app2, Nat.sub_diag in H by lia. rewrite nth_error_app2 in H by lia. replace (S (length l) - length l) with 1 in H by lia.
  specialize (H eq_refl eq_refl). lia.
Qed.

Section Pack.
Context {C A : Type}.
(** [ok] are the chunks that are well made, [good] the lists of updates that chunks may be joined to. *)
Variable rows : C -> list A. Variable ok : C -> Prop. Variable good : list A -> Prop.
Variable len : C -> nat. Variable target : nat. Variable comb : C -> C -> option C. Variable splt : C -> nat -> option (C * C). Variable sl : C -> option C.
Hypothesis Hgood : forall a b c, good (a ++ b ++ c) -> good b.
Hypothesis Hlen : forall c, ok c -> len c = length (rows c).
Hypothesis Htarget : 0 < target.
Hypothesis Hcombine : forall a b, ok a -> ok b -> 0 < len a -> 0 < len b -> good (rows a ++ rows b) -> len a + len b <= target -> exists c, comb a b = Some c /\ ok c /\ rows c = rows a ++ rows b.
Hypothesis Hsplit : forall c n, ok c -> 0 < n <= len c -> exists a b, splt c n = Some (a, b) /\ ok a /\ ok b /\ rows a = firstn n (rows c) /\ rows b = skipn n (rows c).
Hypothesis Hseal : forall c, ok c -> 0 < len c -> exists c', sl c = Some c' /\ ok c' /\ rows c' = rows c.

Definition all_rows (l : list C) : list A := flat_map rows l.
Definition held (carry : option C) : list C := match carry with Some c => [c] | None => [] end.
Definition sizes (l : list C) : list nat := map len l.
Notation fit := (fun c => ok c /\ 0 < len c).
(** The output so far, and the carry. *)
Record open (out : list C) (carry : option C) : Prop := {
  op_graded : graded target (sizes (out ++ held carry));
  op_nonempty : Forall fit (out ++ held carry);
  op_end : match carry with Some c => len c < target | None => out = [] \/ last (sizes out) 0 = target end
}.
Lemma open_nil : open [] None.
Proof. constructor; cbn; auto. apply graded_nil. Qed.
Lemma seal_ok c : fit c -> exists c', sl c = Some c' /\ fit c' /\ rows c' = rows c /\ len c' = len c.
Proof. intros [H1 H2]. destruct (Hseal c H1 H2) as (c' & E & K & R). exists c'. assert (L : len c' = len c) by (rewrite !Hlen, R; auto). rewrite L. auto. Qed.
Lemma all_rows_app a b : all_rows (a ++ b) = all_rows a ++ all_rows b.
Proof. apply flat_map_app. Qed.
Lemma sizes_app a b : sizes (a ++ b) = sizes a ++ sizes b.
Proof. apply map_app. Qed.
Lemma open_full out : graded target (sizes out) -> Forall fit out -> (out = [] \/ last (sizes out) 0 = target) -> open out None.
Proof. intros. constructor; cbn [held]; rewrite ?app_nil_r; auto. Qed.
Lemma last_sizes out c : last (sizes (out ++ [c])) 0 = len c.
Proof. rewrite sizes_app. apply last_last. Qed.
(** The carry becomes part of the output, and another chunk follows it, that cannot be joined to it. *)
Lemma open_emit out c : open out (Some c) -> exists c', sl c = Some c' /\ rows c' = rows c /\
  graded target (sizes (out ++ [c'])) /\ Forall fit (out ++ [c']) /\ last (sizes (out ++ [c'])) 0 = len c.
Proof.
  intros [G N E]. cbn [held] in *. apply Forall_app in N. destruct N as [N1 N2]. inversion N2; subst.
  destruct (seal_ok c) as (c' & E1 & K & R & L); auto. exists c'. rewrite last_sizes.
  rewrite sizes_app in *. cbn in *. rewrite L. split; auto. split; auto. split; [auto|split; [|auto]]. apply Forall_app. auto.
Qed.

Lemma peel_ok fuel : forall rest, ok rest -> target <= len rest -> len rest <= fuel ->
  exists carry out, pack_peel len target splt sl fuel rest = Some (carry, out) /\ all_rows out ++ all_rows (held carry) = rows rest /\
    out <> [] /\ Forall (fun c => ok c /\ len c = target) out /\ match carry with Some c => ok c /\ 0 < len c < target | None => True end.
Proof.
  induction fuel as [|fuel IH]; intros rest H0 H1 H2; [lia|]. cbn [pack_peel].
  destruct (Hsplit rest target) as (head & tail & Es & Oh & Ot & Hh & Ht); auto. rewrite Es.
  assert (Lh : len head = target) by (rewrite Hlen, Hh, firstn_length, <- Hlen; auto; lia).
  assert (Lt : len tail = len rest - target) by (rewrite Hlen, Ht, skipn_length, <- Hlen; auto; lia).
  destruct (seal_ok head) as (head' & El & [Kl _] & Rl & Ll); [split; auto; lia|]. rewrite El.
  destruct (Nat.leb_spec target (len tail)) as [L|L].
  - destruct (IH tail Ot L) as (carry & out & E & R & _ & F & Cc); [lia|]. rewrite E. exists carry, (head' :: out). split; auto.
    split; [|split; [discriminate|split; [constructor; auto; split; auto; lia|auto]]]. cbn [all_rows flat_map]. fold (all_rows out). rewrite <- app_assoc, R, Rl, Hh, Ht. apply firstn_skipn.
  - eexists _, _. split; [reflexivity|]. split; [|split; [discriminate|split; [repeat constructor; auto; lia|]]].
    + cbn [all_rows flat_map]. rewrite app_nil_r, Rl, Hh. rewrite <- (firstn_skipn target (rows rest)) at 2. f_equal. rewrite <- Ht.
      destruct (Nat.ltb_spec 0 (len tail)) as [P|P]; cbn; [rewrite app_nil_r; auto|]. rewrite Hlen in P by auto. destruct (rows tail); cbn in P; [auto|lia].
    + destruct (Nat.ltb_spec 0 (len tail)); auto.
Qed.
(** Absorbing a chunk after an output that cannot be joined to it. *)
Lemma absorb_ok out chunk : graded target (sizes out) -> Forall fit out -> out = [] \/ target < last (sizes out) 0 + len chunk -> fit chunk ->
  exists carry o, pack_absorb len target splt sl chunk = Some (carry, o) /\ all_rows o ++ all_rows (held carry) = rows chunk /\ open (out ++ o) carry.
Proof.
  intros G N Hl [Ho Hc]. unfold pack_absorb. destruct (Nat.compare_spec (len chunk) target) as [E|L|L].
  - destruct (seal_ok chunk) as (c' & El & Kl & Rl & Ll); auto. rewrite El.
    exists None, [c']. split; auto. split; [cbn; rewrite !app_nil_r; apply Rl|]. apply open_full.
    + rewrite sizes_app. cbn. rewrite Ll. apply graded_snoc; auto; [lia|]. destruct Hl as [->|Hl]; auto.
    + apply Forall_app. split; auto.
    + right. rewrite last_sizes, Ll. auto.
  - exists (Some chunk), []. split; auto. split; [cbn; rewrite app_nil_r; auto|]. rewrite app_nil_r. constructor; cbn [held]; auto.
    + rewrite sizes_app. cbn. apply graded_snoc; auto; [lia|]. destruct Hl as [->|Hl]; auto.
    + apply Forall_app. auto.
  - destruct (peel_ok (len chunk) chunk) as (carry & o & E & R & Hne & F & Cc); [auto|lia|lia|]. exists carry, o. split; auto. split; auto.
    assert (Go : graded target (sizes (out ++ o)) /\ Forall fit (out ++ o) /\ last (sizes (out ++ o)) 0 = target).
    { clear - G N Hl Hne F L Htarget. induction o as [|x o IH] using rev_ind; [congruence|]. apply Forall_app in F. destruct F as [F Fx]. inversion Fx as [|? ? [Ox Ex] _]; subst.
      rewrite app_assoc, last_sizes. destruct o as [|y o'].
      - rewrite app_nil_r. split; [|split; auto].
        + rewrite sizes_app. cbn. apply graded_snoc; auto. destruct out as [|z out'] using rev_ind; [left; auto|right]. rewrite last_sizes.
          apply Forall_app in N. destruct N as [_ N]. inversion N; subst. lia.
        + apply Forall_app. split; [auto|]. constructor; [split; auto|auto].
      - destruct IH as (G' & N' & L'); [discriminate|auto|]. split; [|split; auto].
        + rewrite sizes_app. apply graded_snoc; auto. right. rewrite L'. lia.
        + apply Forall_app. split; [auto|]. constructor; [split; auto|auto]. }
    destruct Go as (G' & N' & L'). constructor.
    + rewrite sizes_app. destruct carry as [c|]; cbn [held sizes map]; [|rewrite app_nil_r; auto]. apply graded_snoc; auto; [lia|]. right. rewrite L'. lia.
    + apply Forall_app. split; auto. destruct carry; cbn; auto. constructor; [split; [tauto|lia]|auto].
    + destruct carry; [lia|auto].
Qed.

Lemma loop_ok input : forall out carry, open out carry -> Forall fit input -> good (all_rows (held carry) ++ all_rows input) ->
  exists carry' o, pack_loop len target comb splt sl input carry = Some (carry', o) /\
    all_rows o ++ all_rows (held carry') = all_rows (held carry) ++ all_rows input /\ open (out ++ o) carry'.
Proof.
  induction input as [|chunk input IH]; intros out carry HO HN HG.
  - exists carry, []. cbn [pack_loop]. split; auto. split; [cbn; rewrite app_nil_r; auto|rewrite app_nil_r; auto].
  - inversion HN as [|? ? Hc HN']; subst. cbn [pack_loop]. destruct Hc as [Oc Hc].
    assert (Hstep : exists carry1 o1, match carry with
        | None => pack_absorb len target splt sl chunk
        | Some c => if len c + len chunk <=? target then match comb c chunk with Some c => if len c =? target then match sl c with Some c => Some (None, [c]) | None => None end else Some (Some c, []) | None => None end
                    else match sl c with Some c => match pack_absorb len target splt sl chunk with Some (carry, out) => Some (carry, c :: out) | None => None end | None => None end
        end = Some (carry1, o1) /\ all_rows o1 ++ all_rows (held carry1) = all_rows (held carry) ++ rows chunk /\ open (out ++ o1) carry1).
    { destruct carry as [c|].
      - destruct (Nat.leb_spec (len c + len chunk) target) as [L|L].
        + pose proof HO as [G N E]. cbn [held] in *. rewrite sizes_app in G. cbn in G. apply Forall_app in N. destruct N as [N1 N2]. inversion N2 as [|? ? [N3 N4] _]; subst.
          destruct (Hcombine c chunk N3 Oc N4 Hc) as (cc & Ec & Ko & Rc); auto.
          { cbn in HG. rewrite app_nil_r, app_assoc in HG. apply (Hgood [] _ (all_rows input)). exact HG. }
          assert (Lc : len cc = len c + len chunk) by (rewrite Hlen, Rc, app_length, <- !Hlen; auto). rewrite Ec.
          assert (G' : graded target (sizes out ++ [len c + len chunk])) by (eapply graded_replace; [exact G|lia|lia]).
          destruct (Nat.eqb_spec (len cc) target) as [Ef|Ef].
          * destruct (seal_ok cc) as (c' & El & Kl & Rl & Ll); [split; auto; lia|]. rewrite El.
            eexists _, _. split; [reflexivity|]. split; [cbn; rewrite !app_nil_r, Rl, Rc; auto|]. apply open_full.
            -- rewrite sizes_app. cbn. rewrite Ll, Lc. auto.
            -- apply Forall_app. split; auto.
            -- right. rewrite last_sizes, Ll. auto.
          * eexists _, _. split; [reflexivity|]. split; [cbn; rewrite !app_nil_r, Rc; auto|]. rewrite app_nil_r. constructor; cbn [held].
            -- rewrite sizes_app. cbn. rewrite Lc. auto.
            -- apply Forall_app. split; auto. constructor; auto. split; auto. lia.
            -- lia.
        + destruct (open_emit out c HO) as (c' & El & Rl & G & N & E). rewrite El. destruct (absorb_ok (out ++ [c']) chunk G N) as (carry1 & o1 & E1 & R1 & O1); [right; rewrite E; lia|auto|].
          rewrite E1. exists carry1, (c' :: o1). split; auto. split.
          * cbn [held all_rows flat_map]. fold (all_rows o1). rewrite <- app_assoc, Rl, app_nil_r. f_equal. exact R1.
          * rewrite <- app_assoc in O1. exact O1.
      - pose proof HO as [G N E]. cbn [held] in *. rewrite app_nil_r in *.
        destruct (absorb_ok out chunk G N) as (carry1 & o1 & E1 & R1 & O1); [destruct E as [->|E]; [auto|right; rewrite E; lia]|auto|].
        exists carry1, o1. auto. }
    destruct Hstep as (carry1 & o1 & E1 & R1 & O1). rewrite E1.
    cbn [all_rows flat_map] in HG. fold (all_rows input) in HG. rewrite app_assoc, <- R1, <- app_assoc in HG.
    destruct (IH (out ++ o1) carry1 O1 HN') as (carry2 & o2 & E2 & R2 & O2). { apply (Hgood (all_rows o1) _ []). rewrite app_nil_r. exact HG. }
    rewrite E2. exists carry2, (o1 ++ o2). split; auto. split.
    + rewrite all_rows_app, <- app_assoc, R2, app_assoc, R1. cbn [all_rows flat_map]. rewrite <- app_assoc. reflexivity.
    + rewrite app_assoc. auto.
Qed.
(** A call, with a carry left by the call before at the head of the input. *)
Lemma pack_held out carry new done : open out carry -> pack len target comb splt sl (held carry ++ new) done =
  match pack_loop len target comb splt sl new carry with
  | Some (carry, out) => match carry with Some c => if done then match sl c with Some c => Some ([], out ++ [c]) | None => None end else Some ([c], out) | None => Some ([], out) end
  | None => None
  end.
Proof.
  intros HO. unfold pack.
  assert (El : pack_loop len target comb splt sl (held carry ++ new) None = pack_loop len target comb splt sl new carry); [|rewrite El; reflexivity].
  destruct carry as [c|]; [|reflexivity]. cbn [held app pack_loop]. unfold pack_absorb. pose proof (op_end _ _ HO) as Hc. cbn in Hc.
  rewrite (proj2 (Nat.compare_lt_iff _ _) Hc). destruct (pack_loop _ _ _ _ _ new (Some c)) as [[? ?]|]; reflexivity.
Qed.
Lemma pack_ok done out carry new : open out carry -> Forall fit new -> good (all_rows (held carry) ++ all_rows new) ->
  exists carry' o, pack len target comb splt sl (held carry ++ new) done = Some (held carry', o) /\
    all_rows o ++ all_rows (held carry') = all_rows (held carry) ++ all_rows new /\
    (done = false -> open (out ++ o) carry') /\ (done = true -> carry' = None /\ graded target (sizes (out ++ o)) /\ Forall fit (out ++ o)).
Proof.
  intros HO HN HG. rewrite (pack_held out carry new done HO). destruct (loop_ok new out carry HO HN HG) as (carry1 & o1 & E1 & R1 & O1). rewrite E1.
  destruct carry1 as [c|].
  - destruct done.
    + destruct (open_emit _ _ O1) as (c' & El & Rl & G & N & _). rewrite El. exists None, (o1 ++ [c']). split; auto. split; [|split; [discriminate|]].
      * cbn [held all_rows flat_map] in *. rewrite all_rows_app, app_nil_r in *. cbn. rewrite app_nil_r, Rl. exact R1.
      * intros _. rewrite app_assoc. auto.
    + exists (Some c), o1. split; auto. split; auto. split; auto. discriminate.
  - exists None, o1. split; auto. split; auto. split; auto. intros _. destruct O1 as [G N _]. cbn [held] in *. rewrite app_nil_r in *. auto.
Qed.
Lemma loop_app a : forall b carry, pack_loop len target comb splt sl (a ++ b) carry =
  match pack_loop len target comb splt sl a carry with
  | Some (carry, out) => match pack_loop len target comb splt sl b carry with Some (carry, out') => Some (carry, out ++ out') | None => None end
  | None => None
  end.
Proof.
  induction a as [|c a IH]; intros b carry; cbn [app pack_loop].
  - destruct (pack_loop _ _ _ _ _ b carry) as [[? ?]|]; auto.
  - match goal with |- context [match ?e with Some _ => _ | None => None end] => destruct e as [[carry1 o1]|]; auto end.
    rewrite IH. destruct (pack_loop _ _ _ _ _ a carry1) as [[carry2 o2]|]; auto. destruct (pack_loop _ _ _ _ _ b carry2) as [[carry3 o3]|]; auto. rewrite app_assoc. reflexivity.
Qed.
(** Any number of calls do what one does. *)
Lemma calls_ok pushes : forall out carry, open out carry -> Forall (Forall fit) pushes -> good (all_rows (held carry) ++ all_rows (concat pushes)) ->
  exists o, in_calls (pack len target comb splt sl) (held carry) pushes = Some o /\
    pack len target comb splt sl (held carry ++ concat pushes) true = Some ([], o) /\
    all_rows o = all_rows (held carry) ++ all_rows (concat pushes) /\ graded target (sizes (out ++ o)) /\ Forall fit (out ++ o).
Proof.
  induction pushes as [|new pushes IH]; intros out carry HO HN HG; cbn [in_calls concat].
  - destruct (pack_ok true out carry [] HO) as (carry' & o & E & R & _ & K); [constructor|exact HG|]. destruct (K eq_refl) as (-> & G & N). rewrite app_nil_r in E. rewrite E. exists o. split; auto.
    rewrite app_nil_r. split; [exact E|]. cbn in R. rewrite !app_nil_r in R. cbn. rewrite app_nil_r. auto.
  - inversion HN as [|? ? Hn HN']; subst. cbn [concat] in HG. rewrite all_rows_app in HG. destruct (pack_ok false out carry new HO Hn) as (carry' & o & E & R & K & _).
    { apply (Hgood [] _ (all_rows (concat pushes))). rewrite <- app_assoc. exact HG. }
    rewrite E. specialize (K eq_refl). rewrite app_assoc, <- R, <- app_assoc in HG.
    destruct (IH _ _ K HN') as (o' & E2 & E3 & R2 & G & N). { apply (Hgood (all_rows o) _ []). rewrite app_nil_r. exact HG. }
    rewrite E2. exists (o ++ o'). split; auto. rewrite (pack_held out carry _ _ HO), loop_app.
    rewrite (pack_held out carry _ _ HO) in E. rewrite (pack_held (out ++ o) carry' _ _ K) in E3.
    destruct (pack_loop _ _ _ _ _ new carry) as [[carry1 o1]|]; [|discriminate]. assert (carry1 = carry' /\ o1 = o) as [-> ->].
    { destruct carry1 as [c1|], carry' as [c'|]; cbn in E; inversion E; subst; auto. }
    destruct (pack_loop _ _ _ _ _ (concat pushes) carry') as [[carry2 o2]|]; [|discriminate]. split; [|split; [|rewrite !app_assoc; auto]].
    + destruct carry2 as [c2|]; [destruct (sl c2); [|discriminate]|]; inversion E3; subst; rewrite ?app_assoc; auto.
    + rewrite !all_rows_app, R2, app_assoc, R, <- app_assoc. reflexivity.
Qed.
End Pack.
Arguments open {C}. Arguments held {C}.
