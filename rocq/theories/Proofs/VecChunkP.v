(** Proofs about VecChunk: it does what the trait asks. *)
From Coq Require Import Lia.
From Verif Require Import Spec.ChunkSpec Base.Merging Proofs.ContainerP Proofs.LatticeP Proofs.ConsolidationP Proofs.MergeBatcherP Proofs.PackP.
From Verif Require Import Base.Order.

Lemma skipn_twice {A} a : forall b (l : list A), skipn a (skipn b l) = skipn (b + a) l.
Proof. induction b as [|b IH]; intros l; auto. destruct l; cbn [skipn Nat.add]; auto. apply skipn_nil. Qed.
Section Gallop.
Context {A : Type}.
(** The prefix of the elements that satisfy a predicate, in a list where no other do. *)
Definition upto (pred : A -> bool) (s : list A) (n : nat) : Prop :=
  n <= length s /\ forall i x, nth_error s i = Some x -> pred x = (i <? n).
Lemma upto_firstn pred s n : upto pred s n -> Forall (fun x => pred x = true) (firstn n s) /\ Forall (fun x => pred x = false) (skipn n s).
Proof.
  revert n. induction s as [|x s IH]; intros n [H1 H2]; [rewrite firstn_nil, skipn_nil; auto|]. destruct n as [|n].
  - split; [constructor|]. apply Forall_forall. intros y Hy. apply In_nth_error in Hy. destruct Hy as [i Hi]. rewrite (H2 _ _ Hi). apply Nat.ltb_ge. lia.
  - cbn [firstn skipn]. destruct (IH n) as [I1 I2].
    + split; [cbn in H1; lia|]. intros i y Hi. apply (H2 (S i)). auto.
    + split; auto. constructor; auto. apply (H2 0). auto.
Qed.
End Gallop.

Section Vec.
Context {K V T R : Type} {OK : Ord K} {OV : Ord V} {TT : Time T} {DR : Diff R}.
Local Notation U := (K * V * T * R)%type.
Variable target : nat.
Hypothesis Htarget : 0 < target.
Local Notation rows := (fun c : list U => c).
Local Notation cat := (@concat U).
Local Notation nonempty := (fun c : list U => c <> []).

Lemma gallop_ok pred (s : list U) start n : upto pred s n -> start <= length s -> vc_gallop pred s start = Some (Nat.max start n).
Proof.
  intros [Hn Hp] Hs. unfold vc_gallop. destruct (Nat.ltb_spec start (length s)) as [L|L]; [|f_equal; lia].
  unfold get. destruct (nth_error s start) as [x|] eqn:Ex; [|apply nth_error_None in Ex; lia]. rewrite (Hp _ _ Ex).
  destruct (Nat.ltb_spec start n) as [L2|L2]; [|f_equal; lia].
  assert (Hf : forall i y, 0 <= i < length s -> nth_error s i = Some y -> pred y = (i <? 0 + n)) by (intros; apply Hp; auto).
  destruct (grow_ok pred s 0 (length s) n (Nat.le_0_l _) (Nat.le_refl _) Hn Hf (S (length s)) start 0) as (i' & k' & E & B1 & B2); [lia|lia|].
  change (2 ^ 0) with 1 in E. rewrite E. destruct k' as [|k'].
  - change (2 ^ 0) with 1 in *. change (1 / 2) with 0. cbn [gallop_shrink]. f_equal. lia.
  - replace (2 ^ S k' / 2) with (2 ^ k') by (rewrite Nat.pow_succ_r', Nat.mul_comm, Nat.div_mul by lia; reflexivity).
    rewrite Nat.pow_succ_r' in *. rewrite (shrink_ok pred s 0 (length s) n) by (auto; lia). f_equal. lia.
Qed.
Lemma upto_exists (s : list U) key : consolidated (A:=K*V*T) s -> exists n, upto (fun u => ltb (fst u) key) s n.
Proof.
  induction s as [|x s IH]; intros HC.
  - exists 0. split; auto. intros [|i] y; discriminate.
  - apply consolidated_cons_inv in HC. destruct HC as (HC & _ & HF). destruct (IH HC) as (n & Hn & Hp).
    destruct (ltb (fst x) key) eqn:El.
    + exists (S n). split; [cbn; lia|]. intros [|i] y Hy; [cbn in Hy; injection Hy as <-; rewrite El; auto|]. rewrite (Hp _ _ Hy). reflexivity.
    + exists 0. split; [lia|]. intros i y Hy. apply ltb_ge. apply ltb_ge in El. destruct i as [|i]; [cbn in Hy; injection Hy as <-; auto|]. cbn in Hy.
      apply nth_error_In in Hy. rewrite Forall_forall in HF. specialize (HF _ Hy). eapply le_trans; [exact El|apply lt_le; auto].
Qed.

(** ** Merging *)
Lemma pieces_ok fuel : forall l : list U, length l <= fuel -> exists ps, vc_pieces target fuel l = Some ps /\ concat ps = l.
Proof.
  induction fuel as [|fuel IH]; intros l Hl; (destruct l as [|u l]; [exists []; cbn; destruct (Nat.eqb_spec target 0); [lia|auto]|]); [cbn in Hl; lia|].
  cbn [vc_pieces]. destruct (Nat.eqb_spec target 0); [lia|]. destruct (IH (skipn target (u :: l))) as (ps & E & Ec); [rewrite skipn_length; cbn [length] in *; lia|].
  rewrite E. eexists. split; auto. cbn [concat]. rewrite Ec. apply firstn_skipn.
Qed.
Lemma flush_ok (result : list U) force : let (r, o) := vc_flush target result force in concat o ++ r = result /\ Forall nonempty o /\ (force = true -> r = []).
Proof.
  unfold vc_flush. destruct (Nat.leb_spec target (length result)) as [L|L]; cbn [orb].
  - cbn. rewrite !app_nil_r. split; auto. split; auto. constructor; auto. intros ->. cbn in L. lia.
  - destruct force, result; cbn; auto.
    + split; [rewrite !app_nil_r; auto|]. split; auto. constructor; auto. discriminate.
    + split; auto. split; auto. discriminate.
Qed.
Lemma copy_ok (run result : list U) out : Forall nonempty out -> exists result' out', vc_copy target run result out = Some (result', out') /\
  concat out' ++ result' = concat out ++ result ++ run /\ Forall nonempty out'.
Proof.
  intros HN. unfold vc_copy. destruct (pieces_ok (length run) run (Nat.le_refl _)) as (ps & E & Ec). rewrite E.
  assert (H : forall ps result out, Forall nonempty out ->
    let ro := fold_left (fun ro piece => let (r, o) := vc_flush target (fst ro ++ piece) false in (r, snd ro ++ o)) ps (result, out) in
    concat (snd ro) ++ fst ro = concat out ++ result ++ concat ps /\ Forall nonempty (snd ro)).
  { clear - Htarget. induction ps as [|p ps IH]; intros result out HN; cbn [fold_left]; [cbn; rewrite app_nil_r; auto|].
    cbn [fst snd]. pose proof (flush_ok (result ++ p) false) as HF. destruct (vc_flush target (result ++ p) false) as [r o]. destruct HF as (F1 & F2 & _).
    destruct (IH r (out ++ o)) as [I1 I2]; [apply Forall_app; auto|]. cbv zeta. split; auto. rewrite I1, concat_app, <- app_assoc. f_equal.
    cbn [concat]. rewrite !app_assoc, F1, <- app_assoc. auto. }
  specialize (H ps result out HN). destruct (fold_left _ ps _) as [r o]. cbn [fst snd] in H. cbv zeta in H. rewrite Ec in H. eexists _, _. split; [reflexivity|]. auto.
Qed.
Lemma refill_ok2 (c : list U) p input : p <= length c -> Forall nonempty input ->
  match vc_refill c p input with
  | None => p = length c /\ input = []
  | Some (c', p', input') => p' < length c' /\ skipn p' c' ++ cat input' = skipn p c ++ cat input /\ Forall nonempty input' /\
      (p < length c /\ input' = input \/ p = length c /\ length input = S (length input'))
  end.
Proof.
  intros Hp HN. unfold vc_refill. destruct (Nat.eqb_spec p (length c)) as [E|E].
  - destruct input as [|c' input']; auto. inversion HN; subst. split; [destruct c'; [congruence|cbn; lia]|]. rewrite skipn_all. auto.
  - split; [lia|]. split; auto. split; auto. left. split; [lia|auto].
Qed.

Lemma merge2_run (run l1 l2 : list U) : all_before run l2 -> merge2 (A:=K*V*T) (run ++ l1) l2 = run ++ merge2 (A:=K*V*T) l1 l2.
Proof.
  intros H. induction run as [|x run IH]; auto. cbn [app]. destruct l2 as [|y l2]; [rewrite !merge2_nil_r; auto|].
  destruct x as [a1 r1], y as [a2 r2]. rewrite merge2_cons. assert (E : cmp a1 a2 = Lt) by (apply (H (a1, r1) (a2, r2)); left; auto). rewrite E. f_equal.
  apply IH. intros x y Hx Hy. apply H; auto. right; auto.
Qed.
Lemma merge2_run_r (run l1 l2 : list U) : all_before run l1 -> merge2 (A:=K*V*T) l1 (run ++ l2) = run ++ merge2 (A:=K*V*T) l1 l2.
Proof.
  intros H. induction run as [|x run IH]; auto. cbn [app]. destruct l1 as [|y l1]; auto.
  destruct x as [a1 r1], y as [a2 r2]. rewrite merge2_cons. assert (E : lt a1 a2) by (apply (H (a1, r1) (a2, r2)); left; auto).
  rewrite (proj2 (cmp_Gt_lt a2 a1) E). f_equal. apply IH. intros x y Hx Hy. apply H; auto. right; auto.
Qed.
Definition horizon (f X : list U) : Prop := forall x, In x f -> exists y, In y X /\ le (A:=K*V*T) (fst x) (fst y).

Lemma finish_ok (c1 : list U) p1 in1 (c2 : list U) p2 in2 result out :
  Forall nonempty in1 -> Forall nonempty in2 -> Forall nonempty out ->
  exists in1' in2' o, vc_finish target c1 p1 in1 c2 p2 in2 result out = (in1', in2', o) /\
    cat in1' = skipn p1 c1 ++ cat in1 /\ cat in2' = skipn p2 c2 ++ cat in2 /\ concat o = concat out ++ result /\
    Forall nonempty in1' /\ Forall nonempty in2' /\ Forall nonempty o /\
    length in1' <= S (length in1) /\ length in2' <= S (length in2) /\ (p1 = length c1 -> in1' = in1) /\ (p2 = length c2 -> in2' = in2).
Proof.
  intros N1 N2 NO. unfold vc_finish. pose proof (flush_ok result true) as HF. destruct (vc_flush target result true) as [r o]. destruct HF as (F1 & F2 & F3).
  specialize (F3 eq_refl). subst r. rewrite app_nil_r in F1. eexists _, _, _. split; [reflexivity|].
  assert (H : forall (c : list U) p input, Forall nonempty input -> let i := if p <? length c then skipn p c :: input else input in
     cat i = skipn p c ++ cat input /\ Forall nonempty i /\ length i <= S (length input) /\ (p = length c -> i = input)).
  { clear. intros c p input HN. destruct (Nat.ltb_spec p (length c)) as [L|L]; cbv zeta.
    - split; auto. split; [constructor; auto; intros E; apply (f_equal (@length U)) in E; rewrite skipn_length in E; cbn in E; lia|]. split; [auto|]. lia.
    - rewrite skipn_all2 by lia. split; auto. }
  destruct (H c1 p1 in1 N1) as (A1 & A2 & A3 & A4). destruct (H c2 p2 in2 N2) as (B1 & B2 & B3 & B4). cbv zeta in *.
  split; auto. split; auto. split; [rewrite concat_app, F1; auto|]. split; auto. split; auto. split; [apply Forall_app; auto|]. auto.
Qed.

Lemma merge_loop_ok fuel : forall (c1 : list U) p1 in1 (c2 : list U) p2 in2 result out,
  consolidated (A:=K*V*T) (skipn p1 c1 ++ cat in1) -> consolidated (A:=K*V*T) (skipn p2 c2 ++ cat in2) ->
  consolidated (A:=K*V*T) c1 -> consolidated (A:=K*V*T) c2 ->
  Forall nonempty in1 -> Forall nonempty in2 -> Forall nonempty out -> p1 < length c1 -> p2 < length c2 ->
  length (skipn p1 c1 ++ cat in1) + length (skipn p2 c2 ++ cat in2) <= fuel ->
  exists in1' in2' o front1 front2, vc_merge_loop target fuel c1 p1 in1 c2 p2 in2 result out = Some (in1', in2', o) /\
    skipn p1 c1 ++ cat in1 = front1 ++ cat in1' /\ skipn p2 c2 ++ cat in2 = front2 ++ cat in2' /\
    concat o = concat out ++ result ++ merge2 (A:=K*V*T) front1 front2 /\
    all_before front1 (cat in2') /\ all_before front2 (cat in1') /\
    horizon front1 (skipn p2 c2 ++ cat in2) /\ horizon front2 (skipn p1 c1 ++ cat in1) /\
    Forall nonempty in1' /\ Forall nonempty in2' /\ Forall nonempty o /\
    length in1' <= S (length in1) /\ length in2' <= S (length in2) /\ (in1' = [] \/ in2' = []).
Proof.
  induction fuel as [|fuel IH]; intros c1 p1 in1 c2 p2 in2 result out C1 C2 D1 D2 N1 N2 NO L1 L2 HF.
  { rewrite app_length, skipn_length in HF. lia. }
  assert (Hs1 : exists a l1, skipn p1 c1 = a :: l1 /\ nth_error c1 p1 = Some a /\ skipn (p1 + 1) c1 = l1).
  { destruct (nth_error c1 p1) as [a|] eqn:Ea; [|apply nth_error_None in Ea; lia]. apply nth_error_split in Ea. destruct Ea as (x & y & -> & Hx).
    exists a, y. replace (p1 + 1) with (length (x ++ [a])) by (rewrite app_length; cbn; lia). rewrite <- Hx at 1. split; [rewrite skipn_app, Nat.sub_diag, skipn_all; auto|]. split; auto.
    replace (x ++ a :: y) with ((x ++ [a]) ++ y) by (rewrite <- app_assoc; auto). rewrite skipn_app, Nat.sub_diag, skipn_all. auto. }
  assert (Hs2 : exists a l1, skipn p2 c2 = a :: l1 /\ nth_error c2 p2 = Some a /\ skipn (p2 + 1) c2 = l1).
  { clear Hs1. destruct (nth_error c2 p2) as [a|] eqn:Ea; [|apply nth_error_None in Ea; lia]. apply nth_error_split in Ea. destruct Ea as (x & y & -> & Hx).
    exists a, y. replace (p2 + 1) with (length (x ++ [a])) by (rewrite app_length; cbn; lia). rewrite <- Hx at 1. split; [rewrite skipn_app, Nat.sub_diag, skipn_all; auto|]. split; auto.
    replace (x ++ a :: y) with ((x ++ [a]) ++ y) by (rewrite <- app_assoc; auto). rewrite skipn_app, Nat.sub_diag, skipn_all. auto. }
  destruct Hs1 as (a & l1 & Es1 & Ea & El1). destruct Hs2 as (b & l2 & Es2 & Eb & El2).
  (* one round: [f1] and [f2] are consumed *)
  assert (Round : exists q1 q2 result1 out1 f1 f2,
     match cmp (fst a) (fst b) with
     | Lt => match vc_gallop (fun u => ltb (fst u) (fst b)) c1 (p1 + 1) with Some run =>
               match vc_copy target (firstn (run - p1) (skipn p1 c1)) result out with Some (result, out) => Some (run, p2, result, out) | None => None end | None => None end
     | Gt => match vc_gallop (fun u => ltb (fst u) (fst a)) c2 (p2 + 1) with Some run =>
               match vc_copy target (firstn (run - p2) (skipn p2 c2)) result out with Some (result, out) => Some (p1, run, result, out) | None => None end | None => None end
     | Eq => let diff := dplus (snd a) (snd b) in
             let result := if negb (is_zero diff) then result ++ [(fst a, diff)] else result in
             let (result, o) := vc_flush target result false in Some (p1 + 1, p2 + 1, result, out ++ o)
     end = Some (q1, q2, result1, out1) /\
     skipn p1 c1 = f1 ++ skipn q1 c1 /\ skipn p2 c2 = f2 ++ skipn q2 c2 /\ q1 <= length c1 /\ q2 <= length c2 /\ 0 < length f1 + length f2 /\
     Forall nonempty out1 /\
     (forall g1 g2, (exists rest, skipn q1 c1 ++ cat in1 = g1 ++ rest) -> (exists rest, skipn q2 c2 ++ cat in2 = g2 ++ rest) ->
        concat out1 ++ result1 ++ merge2 (A:=K*V*T) g1 g2 = concat out ++ result ++ merge2 (A:=K*V*T) (f1 ++ g1) (f2 ++ g2)) /\
     all_before f1 (skipn q2 c2 ++ cat in2) /\ all_before f2 (skipn q1 c1 ++ cat in1) /\
     horizon f1 (skipn p2 c2 ++ cat in2) /\ horizon f2 (skipn p1 c1 ++ cat in1)).
  { destruct (cmp_spec (fst a) (fst b)) as [E|E|E].
    - (* equal *)
      cbv zeta. pose proof (flush_ok (if negb (is_zero (dplus (snd a) (snd b))) then result ++ [(fst a, dplus (snd a) (snd b))] else result) false) as HFl.
      destruct (vc_flush _ _ false) as [r o]. destruct HFl as (F1 & F2 & _).
      exists (p1 + 1), (p2 + 1), r, (out ++ o), [a], [b]. split; auto. rewrite El1, El2. split; auto. split; auto. split; [lia|]. split; [lia|]. split; [cbn; lia|].
      split; [apply Forall_app; auto|].
      assert (B1 : all_before [a] (l2 ++ cat in2)).
      { intros x y [<-|[]] Hy. rewrite E. rewrite Es2 in C2. cbn in C2. apply consolidated_cons_inv in C2. destruct C2 as (_ & _ & HFa). rewrite Forall_forall in HFa. apply (HFa y Hy). }
      assert (B2 : all_before [b] (l1 ++ cat in1)).
      { intros x y [<-|[]] Hy. rewrite <- E. rewrite Es1 in C1. cbn in C1. apply consolidated_cons_inv in C1. destruct C1 as (_ & _ & HFa). rewrite Forall_forall in HFa. apply (HFa y Hy). }
      split; [|split; [auto|split; [auto|split]]].
      + intros g1 g2 _ _. rewrite concat_app, <- app_assoc. f_equal. rewrite app_assoc, F1. destruct a as [ka ra], b as [kb rb]. cbn [app fst snd] in *. subst kb.
        rewrite merge2_cons, cmp_refl. destruct (is_zero (dplus ra rb)); cbn [negb]; auto. rewrite <- app_assoc. reflexivity.
      + intros x [<-|[]]. exists b. split; [rewrite Es2; left; auto|rewrite E; apply le_refl].
      + intros x [<-|[]]. exists a. split; [rewrite Es1; left; auto|rewrite E; apply le_refl].
    - (* the first is less *)
      destruct (upto_exists c1 (fst b) D1) as (n & Hn). rewrite (gallop_ok _ _ (p1 + 1) n Hn) by lia. cbv beta iota.
      assert (Hpn : p1 < n). { destruct Hn as [_ Hn]. specialize (Hn _ _ Ea). cbn in Hn. rewrite (proj2 (ltb_lt _ _) E) in Hn. symmetry in Hn. apply Nat.ltb_lt in Hn. auto. }
      replace (Nat.max (p1 + 1) n) with n by lia. set (run := firstn (n - p1) (skipn p1 c1)).
      destruct (copy_ok run result out NO) as (r & o & Ec & Ec2 & NO'). rewrite Ec.
      assert (Hrun : skipn p1 c1 = run ++ skipn n c1).
      { unfold run. rewrite <- (firstn_skipn (n - p1) (skipn p1 c1)) at 1. f_equal. rewrite skipn_twice. f_equal. lia. }
      assert (Hlt : forall x, In x run -> lt (A:=K*V*T) (fst x) (fst b)).
      { intros x Hx. apply ltb_lt. destruct (upto_firstn _ _ _ Hn) as [Hf _]. rewrite Forall_forall in Hf. apply Hf. unfold run in Hx.
        rewrite <- (firstn_skipn p1 (firstn n c1)). apply in_app_iff. right. rewrite skipn_firstn_comm. exact Hx. }
      assert (Hb : forall y, In y (skipn p2 c2 ++ cat in2) -> le (A:=K*V*T) (fst b) (fst y)).
      { intros y Hy. rewrite Es2 in Hy, C2. cbn in Hy, C2. apply consolidated_cons_inv in C2. destruct C2 as (_ & _ & HFa). destruct Hy as [<-|Hy]; [apply le_refl|].
        rewrite Forall_forall in HFa. apply lt_le. apply (HFa y Hy). }
      assert (Hbef : all_before run (skipn p2 c2 ++ cat in2)) by (intros x y Hx Hy; eapply lt_le_trans; [apply Hlt; auto|apply Hb; auto]).
      exists n, p2, r, o, run, []. split; auto. split; auto. split; auto. split; [apply (proj1 Hn)|]. split; [lia|]. split.
      { unfold run. rewrite firstn_length, skipn_length. destruct Hn. lia. }
      split; auto. split; [|split; [auto|split; [intros x y []|split; [|intros x []]]]].
      + intros g1 g2 _ (rest & Hg2). rewrite app_assoc, Ec2, <- !app_assoc. f_equal. f_equal. cbn [app]. symmetry. apply merge2_run.
        intros x y Hx Hy. apply Hbef; auto. rewrite Hg2. apply in_app_iff; auto.
      + intros x Hx. exists b. split; [rewrite Es2; left; auto|apply lt_le; auto].
    - (* the second is less *)
      destruct (upto_exists c2 (fst a) D2) as (n & Hn). rewrite (gallop_ok _ _ (p2 + 1) n Hn) by lia. cbv beta iota.
      assert (Hpn : p2 < n). { destruct Hn as [_ Hn]. specialize (Hn _ _ Eb). cbn in Hn. rewrite (proj2 (ltb_lt _ _) E) in Hn. symmetry in Hn. apply Nat.ltb_lt in Hn. auto. }
      replace (Nat.max (p2 + 1) n) with n by lia. set (run := firstn (n - p2) (skipn p2 c2)).
      destruct (copy_ok run result out NO) as (r & o & Ec & Ec2 & NO'). rewrite Ec.
      assert (Hrun : skipn p2 c2 = run ++ skipn n c2).
      { unfold run. rewrite <- (firstn_skipn (n - p2) (skipn p2 c2)) at 1. f_equal. rewrite skipn_twice. f_equal. lia. }
      assert (Hlt : forall x, In x run -> lt (A:=K*V*T) (fst x) (fst a)).
      { intros x Hx. apply ltb_lt. destruct (upto_firstn _ _ _ Hn) as [Hf _]. rewrite Forall_forall in Hf. apply Hf. unfold run in Hx.
        rewrite <- (firstn_skipn p2 (firstn n c2)). apply in_app_iff. right. rewrite skipn_firstn_comm. exact Hx. }
      assert (Hb : forall y, In y (skipn p1 c1 ++ cat in1) -> le (A:=K*V*T) (fst a) (fst y)).
      { intros y Hy. rewrite Es1 in Hy, C1. cbn in Hy, C1. apply consolidated_cons_inv in C1. destruct C1 as (_ & _ & HFa). destruct Hy as [<-|Hy]; [apply le_refl|].
        rewrite Forall_forall in HFa. apply lt_le. apply (HFa y Hy). }
      assert (Hbef : all_before run (skipn p1 c1 ++ cat in1)) by (intros x y Hx Hy; eapply lt_le_trans; [apply Hlt; auto|apply Hb; auto]).
      exists p1, n, r, o, [], run. split; auto. split; auto. split; auto. split; [lia|]. split; [apply (proj1 Hn)|]. split.
      { unfold run. cbn. rewrite firstn_length, skipn_length. destruct Hn. lia. }
      split; auto. split; [|split; [intros x y []|split; [auto|split; [intros x []|]]]].
      + intros g1 g2 (rest & Hg1) _. rewrite app_assoc, Ec2, <- !app_assoc. f_equal. f_equal. cbn [app]. symmetry. apply merge2_run_r.
        intros x y Hx Hy. apply Hbef; auto. rewrite Hg1. apply in_app_iff; auto.
      + intros x Hx. exists a. split; [rewrite Es1; left; auto|apply lt_le; auto]. }
  destruct Round as (q1 & q2 & r1 & o1 & f1 & f2 & ER & S1 & S2 & Q1 & Q2 & Qf & NO1 & RM & RB1 & RB2 & RH1 & RH2).
  assert (Unf : vc_merge_loop target (S fuel) c1 p1 in1 c2 p2 in2 result out =
     match vc_refill c1 q1 in1 with
     | None => Some (vc_finish target c1 q1 in1 c2 q2 in2 r1 o1)
     | Some (c1, p1, in1) =>
            match vc_refill c2 q2 in2 with
            | None => Some (vc_finish target c1 p1 in1 c2 q2 in2 r1 o1)
            | Some (c2, p2, in2) => vc_merge_loop target fuel c1 p1 in1 c2 p2 in2 r1 o1
            end
     end).
  { cbn [vc_merge_loop]. rewrite (proj2 (Nat.ltb_lt _ _) L1), (proj2 (Nat.ltb_lt _ _) L2). cbn [andb]. unfold get. rewrite Ea, Eb. cbv zeta in ER |- *. rewrite ER. reflexivity. }
  rewrite Unf. clear Unf ER.
  assert (Stop : forall cc1 pp1 i1, skipn pp1 cc1 ++ cat i1 = skipn q1 c1 ++ cat in1 -> Forall nonempty i1 ->
     (pp1 = length cc1 /\ i1 = [] \/ q2 = length c2 /\ in2 = []) -> length i1 <= length in1 ->
     exists in1' in2' o front1 front2, Some (vc_finish target cc1 pp1 i1 c2 q2 in2 r1 o1) = Some (in1', in2', o) /\
    skipn p1 c1 ++ cat in1 = front1 ++ cat in1' /\ skipn p2 c2 ++ cat in2 = front2 ++ cat in2' /\
    concat o = concat out ++ result ++ merge2 (A:=K*V*T) front1 front2 /\
    all_before front1 (cat in2') /\ all_before front2 (cat in1') /\
    horizon front1 (skipn p2 c2 ++ cat in2) /\ horizon front2 (skipn p1 c1 ++ cat in1) /\
    Forall nonempty in1' /\ Forall nonempty in2' /\ Forall nonempty o /\
    length in1' <= S (length in1) /\ length in2' <= S (length in2) /\ (in1' = [] \/ in2' = [])).
  { intros cc1 pp1 i1 Ei Ni Hend Hlen. destruct (finish_ok cc1 pp1 i1 c2 q2 in2 r1 o1 Ni N2 NO1) as (i1' & i2' & o & Ef & G1 & G2 & G3 & G4 & G5 & G6 & G7 & G8 & G9 & G10).
    exists i1', i2', o, f1, f2. split; [f_equal; auto|]. rewrite G1, G2, Ei. split; [rewrite S1, <- app_assoc; auto|]. split; [rewrite S2, <- app_assoc; auto|]. split.
    { rewrite G3. specialize (RM [] []). rewrite !app_nil_r in RM. apply RM; eexists; reflexivity. }
    split; auto. split; auto. split; auto. split; auto. split; auto. split; auto. split; auto. split; [lia|]. split; [lia|].
    destruct Hend as [[E1 E2]|[E1 E2]]; [left; rewrite (G9 E1); auto|right; rewrite (G10 E1); auto]. }
  pose proof (refill_ok2 c1 q1 in1 Q1 N1) as HR1. destruct (vc_refill c1 q1 in1) as [[[c1' p1'] in1a]|] eqn:ER1.
  - destruct HR1 as (R1 & R2 & R3 & R4).
    pose proof (refill_ok2 c2 q2 in2 Q2 N2) as HR2. destruct (vc_refill c2 q2 in2) as [[[c2' p2'] in2a]|] eqn:ER2.
    + destruct HR2 as (T1 & T2 & T3 & T4).
      assert (HX1 : skipn p1 c1 ++ cat in1 = f1 ++ (skipn p1' c1' ++ cat in1a)) by (rewrite R2, S1, <- app_assoc; auto).
      assert (HX2 : skipn p2 c2 ++ cat in2 = f2 ++ (skipn p2' c2' ++ cat in2a)) by (rewrite T2, S2, <- app_assoc; auto).
      assert (Len1 : length in1a <= length in1) by (destruct R4 as [[_ ->]|[_ R4]]; lia).
      assert (Len2 : length in2a <= length in2) by (destruct T4 as [[_ ->]|[_ T4]]; lia).
      assert (D1' : consolidated (A:=K*V*T) c1').
      { unfold vc_refill in ER1. destruct (q1 =? length c1).
        - destruct in1 as [|c in1]; [discriminate|]. injection ER1 as <- <- <-. cbn [concat] in C1. apply consolidated_app in C1. destruct C1 as (_ & C1 & _). apply consolidated_app in C1. tauto.
        - injection ER1 as <- <- <-. auto. }
      assert (D2' : consolidated (A:=K*V*T) c2').
      { unfold vc_refill in ER2. destruct (q2 =? length c2).
        - destruct in2 as [|c in2]; [discriminate|]. injection ER2 as <- <- <-. cbn [concat] in C2. apply consolidated_app in C2. destruct C2 as (_ & C2 & _). apply consolidated_app in C2. tauto.
        - injection ER2 as <- <- <-. auto. }
      destruct (IH c1' p1' in1a c2' p2' in2a r1 o1) as (i1' & i2' & o & g1 & g2 & E & G1 & G2 & G3 & G4 & G5 & G6 & G7 & G8 & G9 & G10 & G11 & G12 & G13); auto.
      { rewrite HX1 in C1. apply consolidated_app in C1. tauto. }
      { rewrite HX2 in C2. apply consolidated_app in C2. tauto. }
      { rewrite HX1, HX2, !(app_length f1), !(app_length f2) in HF. lia. }
      exists i1', i2', o, (f1 ++ g1), (f2 ++ g2). split; auto.
      split; [rewrite HX1, G1, app_assoc; auto|]. split; [rewrite HX2, G2, app_assoc; auto|]. split.
      { rewrite G3. apply RM; [rewrite <- R2, G1|rewrite <- T2, G2]; eauto. }
      split; [|split; [|split; [|split; [|repeat (split; [solve [auto|lia]|]); auto]]]].
      * intros x y Hx Hy. apply in_app_iff in Hx. destruct Hx as [Hx|Hx]; [|apply G4; auto]. apply RB1; auto. rewrite <- T2, G2. apply in_app_iff; auto.
      * intros x y Hx Hy. apply in_app_iff in Hx. destruct Hx as [Hx|Hx]; [|apply G5; auto]. apply RB2; auto. rewrite <- R2, G1. apply in_app_iff; auto.
      * intros x Hx. apply in_app_iff in Hx. destruct Hx as [Hx|Hx]; [apply RH1; auto|]. destruct (G6 x Hx) as (y & Hy & Hle). exists y. split; auto. rewrite HX2. apply in_app_iff. auto.
      * intros x Hx. apply in_app_iff in Hx. destruct Hx as [Hx|Hx]; [apply RH2; auto|]. destruct (G7 x Hx) as (y & Hy & Hle). exists y. split; auto. rewrite HX1. apply in_app_iff. auto.
    + apply Stop; auto. destruct R4 as [[_ ->]|[_ R4]]; lia.
  - apply Stop; auto.
Qed.
Definition vec_chain (l : list (list U)) : Prop := Forall nonempty l /\ consolidated (A:=K*V*T) (updates_of rows l).
Lemma chain_concat (l : list (list U)) : vec_chain l <-> Forall nonempty l /\ consolidated (A:=K*V*T) (cat l).
Proof. unfold vec_chain, updates_of. rewrite flat_map_concat_map, map_id. tauto. Qed.
Lemma updates_concat (l : list (list U)) : updates_of rows l = cat l.
Proof. unfold updates_of. rewrite flat_map_concat_map, map_id. auto. Qed.
Lemma vc_merge_law in1 in2 : vec_chain in1 -> vec_chain in2 -> in1 <> [] -> in2 <> [] ->
  exists in1' in2' out front1 front2, vc_merge target in1 in2 = Some (in1', in2', out) /\
      updates_of rows in1 = front1 ++ updates_of rows in1' /\ updates_of rows in2 = front2 ++ updates_of rows in2' /\
      consolidated (A:=K*V*T) (updates_of rows out) /\ same_weights (A:=K*V*T) (updates_of rows out) (front1 ++ front2) /\
      length (updates_of rows out) <= length front1 + length front2 /\
      all_before front1 (updates_of rows in2') /\ all_before front2 (updates_of rows in1') /\
      (forall x, In x front1 -> exists y, In y (updates_of rows in2) /\ le (A:=K*V*T) (fst x) (fst y)) /\
      (forall x, In x front2 -> exists y, In y (updates_of rows in1) /\ le (A:=K*V*T) (fst x) (fst y)) /\
      Forall nonempty in1' /\ Forall nonempty in2' /\ Forall nonempty out /\
      length in1' <= length in1 /\ length in2' <= length in2 /\ length in1' + length in2' < length in1 + length in2.
Proof.
  intros H1 H2 E1 E2. apply (proj1 (chain_concat _)) in H1, H2. destruct H1 as [N1 C1], H2 as [N2 C2].
  destruct in1 as [|c1 i1]; [congruence|]. destruct in2 as [|c2 i2]; [congruence|]. inversion N1 as [|? ? M1 N1']; inversion N2 as [|? ? M2 N2']; subst.
  cbn [concat] in C1, C2.
  destruct (merge_loop_ok (length (cat (c1 :: i1)) + length (cat (c2 :: i2))) c1 0 i1 c2 0 i2 [] [])
    as (i1' & i2' & o & g1 & g2 & E & G1 & G2 & G3 & G4 & G5 & G6 & G7 & G8 & G9 & G10 & G11 & G12 & G13); auto; cbn [skipn]; auto.
  { apply consolidated_app in C1. tauto. } { apply consolidated_app in C2. tauto. }
  { destruct c1; [congruence|cbn; lia]. } { destruct c2; [congruence|cbn; lia]. }
  cbn [skipn] in *. cbn [vc_merge]. rewrite !updates_concat. cbn [app concat] in G3. rewrite G1 in C1. rewrite G2 in C2. apply consolidated_app in C1, C2.
  exists i1', i2', o, g1, g2. rewrite !updates_concat. split; auto. split; auto. split; auto. rewrite G3. split; [apply merge2_consolidated; tauto|].
  split; [apply merge2_weight|]. split; [apply merge2_length|]. split; auto. split; auto. split; auto. split; auto. split; auto. split; auto. split; auto. cbn [length].
  split; [lia|]. split; [lia|]. destruct G13 as [-> | ->]; cbn; lia.
Qed.

(** ** Extracting *)
Lemma extract_fold frontier (l : list U) : forall residual k s,
  fold_left (fun x u => let '(residual, k, s) := x in
                     if ac_less_equal frontier (snd (fst u)) then (ac_insert residual (snd (fst u)), k ++ [u], s) else (residual, k, s ++ [u])) l (residual, k, s) =
  (ac_extend residual (map time_of (filter (fun u => beyondb frontier (time_of u)) l)), k ++ filter (fun u => beyondb frontier (time_of u)) l,
   s ++ filter (fun u => negb (beyondb frontier (time_of u))) l).
Proof.
  induction l as [|u l IH]; intros residual k s; cbn [fold_left filter]; [cbn; rewrite !app_nil_r; auto|].
  change (ac_less_equal frontier (snd (fst u))) with (beyondb frontier (time_of u)). destruct (beyondb frontier (time_of u)); cbn [negb]; rewrite IH, <- app_assoc; reflexivity.
Qed.
Lemma keep_some (l : list U) : updates_of rows (if negb (is_nil l) then [l] else []) = l /\ Forall nonempty (if negb (is_nil l) then [l] else []).
Proof. destruct l; cbn; rewrite ?app_nil_r; split; auto; repeat constructor. discriminate. Qed.
Lemma vc_extract_law input frontier residual : vec_chain input -> input <> [] -> antichain residual ->
    exists input' residual' keep ship front, vc_extract input frontier residual = Some (input', residual', keep, ship) /\
      updates_of rows input = front ++ updates_of rows input' /\
      updates_of rows keep = filter (fun u => beyondb frontier (time_of u)) front /\
      updates_of rows ship = filter (fun u => negb (beyondb frontier (time_of u))) front /\
      antichain residual' /\ (forall t, beyond residual' t <-> beyond residual t \/ beyond (map time_of (updates_of rows keep)) t) /\
      Forall nonempty input' /\ Forall nonempty keep /\ Forall nonempty ship /\ length input' < length input.
Proof.
  intros [HN HC] HE HA. destruct input as [|c input]; [congruence|]. inversion HN; subst. cbn [vc_extract]. rewrite extract_fold. cbn [app].
  destruct (keep_some (filter (fun u => beyondb frontier (time_of u)) c)) as [K1 K2]. destruct (keep_some (filter (fun u => negb (beyondb frontier (time_of u))) c)) as [S1 S2].
  eexists _, _, _, _, c. split; [reflexivity|]. split; auto. split; auto. split; auto. split; [apply ac_extend_antichain; auto|]. split.
  { intros t. rewrite K1. apply ac_extend_beyond. }
  split; auto.
Qed.

(** ** Advancing *)
Local Notation data u := (fst (fst u)).
Local Notation adv frontier := (fun u : U => (fst (fst u), advance_by (time_of u) frontier, snd u)).
Lemma group_ok kv (l : list U) : let (g, rest) := vc_group kv l in l = g ++ rest /\ Forall (fun u => data u = kv) g /\
  match rest with [] => True | u :: _ => data u <> kv end.
Proof.
  induction l as [|u l IH]; cbn [vc_group]; [cbn; auto|]. destruct (eqb_spec (data u) kv) as [E|E].
  - destruct (vc_group kv l) as [g rest]. destruct IH as (I1 & I2 & I3). split; [cbn; f_equal; auto|]. split; auto.
  - split; auto.
Qed.
Lemma data_le (x y : U) : lt (A:=K*V*T) (fst x) (fst y) -> le (data x) (data y).
Proof. destruct x as [[kv t] r], y as [[kv' t'] r']. cbn [fst]. intros H. apply lt_pair in H. destruct H as [H|[-> _]]; [apply lt_le; auto|apply le_refl]. Qed.
Lemma data_lt (x y : U) : lt (data x) (data y) -> lt (A:=K*V*T) (fst x) (fst y).
Proof. destruct x as [[kv t] r], y as [[kv' t'] r']. cbn [fst]. intros H. apply lt_pair. auto. Qed.
(** The group of the first data, and what follows it. *)
Lemma first_group (u : U) l : consolidated (A:=K*V*T) (u :: l) ->
  exists g rest, vc_group (data u) (u :: l) = (u :: g, rest) /\ l = g ++ rest /\ Forall (fun x => data x = data u) (u :: g) /\ data_before (u :: g) rest.
Proof.
  intros HC. cbn [vc_group]. rewrite eqb_refl. pose proof (group_ok (data u) l) as HG. destruct (vc_group (data u) l) as [g rest]. destruct HG as (G1 & G2 & G3).
  exists g, rest. split; auto. split; auto. assert (HF : Forall (fun x => data x = data u) (u :: g)) by (constructor; auto). split; auto.
  assert (H : Forall (fun y => lt (data u) (data y)) rest).
  { apply consolidated_cons_inv in HC. destruct HC as (HC & _ & HU). subst l. apply consolidated_app in HC. destruct HC as (_ & HC & _). apply Forall_app in HU. destruct HU as [_ HU].
    destruct rest as [|w rest]; auto. inversion HU as [|? ? Hw HU']; subst. assert (Hlt : lt (data u) (data w)).
    { pose proof (data_le _ _ Hw) as Hle. apply le_lteq in Hle. destruct Hle as [|Hle]; auto. congruence. }
    constructor; auto. apply consolidated_cons_inv in HC. destruct HC as (_ & _ & HF2). eapply Forall_impl; [|exact HF2]. intros y Hy. cbn in *. eapply lt_le_trans; [exact Hlt|]. apply data_le; auto. }
  intros x y Hx Hy. rewrite Forall_forall in HF, H. rewrite (HF x Hx). auto.
Qed.
(** Sorting by time, and accumulating at each time, consolidates updates to the same data. *)
Lemma time_insert_same kv (x : U) l : data x = kv -> Forall (fun u => data u = kv) l -> vc_time_insert x l = insert_sorted (A:=K*V*T) x l.
Proof.
  intros Hx HF. induction HF as [|y l Hy HF IH]; auto. cbn [vc_time_insert insert_sorted]. rewrite IH.
  replace (leb (fst x) (fst y)) with (leb (snd (fst x)) (snd (fst y))); auto.
  destruct x as [[kx tx] rx], y as [[ky ty] ry]. cbn [fst snd] in *. subst kx ky. unfold leb. cbn [cmp Ord_prod]. unfold pair_cmp. cbn [fst snd]. rewrite cmp_refl. auto.
Qed.
Lemma time_sort_same kv (l : list U) : Forall (fun u => data u = kv) l -> vc_time_sort l = isort (A:=K*V*T) l.
Proof.
  induction 1 as [|x l Hx HF IH]; auto. cbn [vc_time_sort isort fold_right]. fold (vc_time_sort l). fold (isort (A:=K*V*T) l). rewrite IH. apply (time_insert_same kv); auto.
  eapply Permutation_Forall; [symmetry; apply isort_perm|]. auto.
Qed.
Lemma runs_same kv kvt diff (l : list U) : fst kvt = kv -> Forall (fun u => data u = kv) l -> vc_runs kvt diff l = compact_go (A:=K*V*T) (kvt, diff) l.
Proof.
  intros Hk HF. revert kvt diff Hk. induction HF as [|u l Hu HF IH]; intros kvt diff Hk; cbn [vc_runs compact_go].
  - unfold keep_nonzero. cbn. destruct (is_zero diff); auto.
  - cbn [fst snd]. replace (eqb (fst u) kvt) with (eqb (snd (fst u)) (snd kvt)).
    + destruct (eqb (snd (fst u)) (snd kvt)).
      * apply IH; auto.
      * rewrite (IH (fst u)) by auto. unfold keep_nonzero. cbn [snd]. destruct u as [au ru]. cbn [fst snd]. destruct (is_zero diff); auto.
    + destruct u as [[ku tu] ru], kvt as [k t]. cbn [fst snd] in *. subst. unfold eqb. cbn [cmp Ord_prod]. unfold pair_cmp. cbn [fst snd]. rewrite cmp_refl. auto.
Qed.
Lemma accumulate_same kv (l : list U) : Forall (fun u => data u = kv) l -> vc_accumulate (vc_time_sort l) = consolidate (A:=K*V*T) l.
Proof.
  intros HF. rewrite (time_sort_same kv) by auto. unfold consolidate. assert (H : Forall (fun u => data u = kv) (isort (A:=K*V*T) l)) by (eapply Permutation_Forall; [symmetry; apply isort_perm|]; auto).
  destruct (isort l) as [|x l']; auto. inversion H; subst. cbn [vc_accumulate compact]. rewrite (runs_same (data x)) by auto. destruct x; auto.
Qed.
Lemma advance_loop_ok frontier fuel : forall buf : list U, length buf <= fuel -> consolidated (A:=K*V*T) buf ->
  exists pushed, vc_advance_loop fuel frontier buf = Some pushed /\ consolidated (A:=K*V*T) pushed /\ same_weights (A:=K*V*T) pushed (map (adv frontier) buf) /\
    length pushed <= length buf /\ (forall x, In x pushed -> exists y, In y buf /\ data x = data y).
Proof.
  induction fuel as [|fuel IH]; intros buf HL HC; (destruct buf as [|u buf]; [exists []; split; [reflexivity|]; split; [apply consolidated_nil|]; split; [apply same_weights_refl|]; split; [auto|intros x []]|]); [cbn in HL; lia|].
  cbn [vc_advance_loop]. destruct (first_group u buf HC) as (g & rest & -> & Eb & HF & HB).
  assert (HCr : consolidated (A:=K*V*T) rest). { apply consolidated_tail in HC. subst buf. apply consolidated_app in HC. tauto. }
  destruct (IH rest) as (pushed & -> & C & W & L & D); [subst buf; cbn in HL; rewrite app_length in HL; lia|auto|].
  set (g' := map _ (u :: g)). assert (HF' : Forall (fun x => data x = data u) g') by (unfold g'; rewrite Forall_map; exact HF).
  rewrite (accumulate_same (data u)) by auto.
  assert (HD : forall x, In x (consolidate (A:=K*V*T) g') -> data x = data u).
  { intros x Hx. apply (in_map fst) in Hx. apply consolidate_incl in Hx. apply in_map_iff in Hx. destruct Hx as (y & E & Hy). rewrite Forall_forall in HF'. rewrite <- E. apply (HF' y Hy). }
  exists (consolidate (A:=K*V*T) g' ++ pushed). split; auto. split; [|split; [|split]].
  - apply consolidated_app. split; [apply consolidate_consolidated|]. split; auto. intros x y Hx Hy. apply data_lt. rewrite (HD x Hx). destruct (D y Hy) as (z & Hz & ->). apply HB; [left; auto|auto].
  - subst buf. change (u :: g ++ rest) with ((u :: g) ++ rest). rewrite map_app. apply same_weights_app; auto. apply consolidate_weight.
  - rewrite app_length. pose proof (consolidate_length (A:=K*V*T) g') as HL'. unfold g' in HL' at 2. rewrite map_length in HL'. subst buf. cbn [length] in *. rewrite app_length. lia.
  - intros x Hx. apply in_app_iff in Hx. destruct Hx as [Hx|Hx].
    + exists u. split; [left; auto|auto].
    + destruct (D x Hx) as (y & Hy & E). exists y. split; auto. right. subst buf. apply in_app_iff. auto.
Qed.
Lemma fill_ok (pushed : list U) : forall result, concat (vc_fill target pushed result) = result ++ pushed /\ Forall nonempty (vc_fill target pushed result).
Proof.
  induction pushed as [|u pushed IH]; intros result; cbn [vc_fill].
  - destruct result; cbn; rewrite ?app_nil_r; split; auto. constructor; auto. discriminate.
  - assert (Hne : result ++ [u] <> []) by (destruct result; discriminate). destruct (target <=? length (result ++ [u])).
    + destruct (IH []) as [I1 I2]. cbn [concat]. rewrite I1. split; [rewrite <- app_assoc; auto|constructor; auto].
    + destruct (IH (result ++ [u])) as [I1 I2]. rewrite I1, <- app_assoc. auto.
Qed.
Lemma last_group_ok (buf : list U) : consolidated (A:=K*V*T) buf -> data_before (firstn (vc_last_group buf) buf) (skipn (vc_last_group buf) buf).
Proof.
  intros HC. unfold vc_last_group. destruct (rev buf) as [|u rb] eqn:Er; [intros x y []|]. rewrite <- Er.
  pose proof (group_ok (data u) (rev buf)) as HG. destruct (vc_group (data u) (rev buf)) as [g rest]. destruct HG as (G1 & G2 & G3). cbn [fst].
  assert (Eb : buf = rev rest ++ rev g) by (rewrite <- rev_app_distr, <- G1, rev_involutive; auto).
  assert (El : length buf - length g = length (rev rest)) by (rewrite Eb, app_length, !rev_length; lia). rewrite El. clear El Er.
  rewrite Eb, firstn_app, Nat.sub_diag, firstn_all, skipn_app, Nat.sub_diag, skipn_all. cbn [firstn skipn app]. rewrite app_nil_r.
  intros x y Hx Hy. rewrite Eb in HC. apply consolidated_app in HC. destruct HC as (C1 & C2 & C3). pose proof (data_le _ _ (C3 x y Hx Hy)) as Hle.
  apply in_rev in Hy. rewrite Forall_forall in G2. rewrite (G2 y Hy) in *. apply le_lteq in Hle. destruct Hle as [|Hle]; auto. exfalso.
  destruct rest as [|h rest]; [destruct Hx|]. apply G3. cbn [rev] in *.
  assert (Hh : le (data h) (data u)). { rewrite <- (G2 y Hy). apply data_le. apply C3; [apply in_app_iff; right; left; auto|rewrite <- in_rev; auto]. }
  apply le_antisym; auto. rewrite <- Hle. apply in_app_iff in Hx. destruct Hx as [Hx|[<-|[]]]; [|apply le_refl]. apply data_le. apply consolidated_app in C1. apply C1; auto. left; auto.
Qed.
Lemma vc_advance_law input frontier done : vec_chain input ->
    exists input' out front, vc_advance target input frontier done = Some (input', out) /\
      updates_of rows input = front ++ updates_of rows input' /\ data_before front (updates_of rows input') /\
      consolidated (A:=K*V*T) (updates_of rows out) /\
      same_weights (A:=K*V*T) (updates_of rows out) (map (adv frontier) front) /\
      length (updates_of rows out) <= length front /\
      Forall nonempty input' /\ Forall nonempty out /\ (done = true -> input' = []) /\ (done = false -> input <> [] -> input' <> []).
Proof.
  intros HCh. apply (proj1 (chain_concat _)) in HCh. destruct HCh as [HN HC]. unfold vc_advance. rewrite updates_concat.
  destruct (concat input) as [|u b] eqn:Eb.
  { exists [], [], []. split; auto. cbn. split; auto. split; [intros x y []|]. split; [apply consolidated_nil|]. split; [apply same_weights_refl|]. split; auto. split; [constructor|]. split; [constructor|]. split; [auto|].
    intros _ Hi. exfalso. destruct HN as [|[|x c] l Hc _]; [congruence|apply Hc; auto|discriminate]. }
  destruct (negb done && eqb (data u) (data (last (u :: b) u))) eqn:Et.
  { exists [u :: b], [], []. split; auto. rewrite updates_concat. cbn [concat app]. rewrite app_nil_r. split; auto. split; [intros x y []|]. split; [apply consolidated_nil|].
    split; [apply same_weights_refl|]. split; auto. split; [repeat constructor; discriminate|]. split; [constructor|]. split; [intros ->; discriminate|discriminate]. }
  set (buf := u :: b) in *. set (e := if done then length buf else vc_last_group buf).
  assert (HD : data_before (firstn e buf) (skipn e buf)). { unfold e. destruct done; [rewrite skipn_all; intros x y _ []|apply last_group_ok; auto]. }
  assert (HCf : consolidated (A:=K*V*T) (firstn e buf)). { rewrite <- (firstn_skipn e buf) in HC. apply consolidated_app in HC. tauto. }
  destruct (advance_loop_ok frontier (length buf) (firstn e buf)) as (pushed & -> & C & W & L & _); [rewrite firstn_length; lia|auto|].
  destruct (fill_ok pushed []) as [F1 F2]. eexists _, _, (firstn e buf). split; [reflexivity|]. rewrite !updates_concat, F1. cbn [app].
  assert (Hi : concat (if e <? length buf then [skipn e buf] else []) = skipn e buf /\ Forall nonempty (if e <? length buf then [skipn e buf] else [])).
  { destruct (Nat.ltb_spec e (length buf)) as [Le|Le]; cbn [concat]; [rewrite app_nil_r|rewrite skipn_all2 by auto]; split; auto. repeat constructor.
    intros E. apply (f_equal (@length U)) in E. rewrite skipn_length in E. cbn [length] in E. lia. }
  destruct Hi as [Hi1 Hi2]. rewrite Hi1. split; [symmetry; apply firstn_skipn|]. split; auto. split; auto. split; auto. split; auto. split; auto. split; auto. split.
  - intros ->. unfold e. rewrite Nat.ltb_irrefl. auto.
  - intros -> _. assert (He : e < length buf).
    { unfold e, vc_last_group. pose proof (app_length (rev b) [u]) as Hl. change (rev b ++ [u]) with (rev buf) in Hl. rewrite rev_length in Hl. destruct (rev buf) as [|x r] eqn:Er; [cbn in *; lia|].
      cbn [vc_group]. rewrite eqb_refl. destruct (vc_group _ r). cbn [fst length]. cbn [length] in *. lia. }
    rewrite (proj2 (Nat.ltb_lt _ _) He). discriminate.
Qed.

(** ** Settling *)
Local Notation any := (fun _ : list U => True).
Definition vc_settling (out queue : list (list U)) : Prop := exists carry, queue = held carry /\ open any (@length U) target out carry.
Lemma nonempty_len (l : list (list U)) : Forall nonempty l <-> Forall (fun c => 0 < length c) l.
Proof. split; intros H; (eapply Forall_impl; [|exact H]); intros [|u c]; cbn; intros Hc; try congruence; try lia; discriminate. Qed.
Lemma vc_settle_ok done out queue new : vc_settling out queue -> Forall nonempty new ->
  exists carry' o, vc_settle target (queue ++ new) done = Some (held carry', o) /\
    updates_of rows queue ++ updates_of rows new = updates_of rows o ++ updates_of rows (held carry') /\
    (done = false -> vc_settling (out ++ o) (held carry')) /\
    (done = true -> carry' = None /\ graded target (map (@length U) (out ++ o)) /\ Forall nonempty (out ++ o)).
Proof.
  intros (carry & -> & HO) HN. apply nonempty_len in HN.
  destruct (pack_ok rows any (fun _ => True) (@length U) target (fun acc next => Some (acc ++ next)) (fun chunk n => Some (firstn n chunk, skipn n chunk)) Some
    (fun _ _ _ _ => I) (fun _ _ => eq_refl) Htarget) with (done := done) (out := out) (carry := carry) (new := new) as (carry' & o & E & Rw & H1 & H2); auto.
  { intros a b. eauto 6. } { intros c n. eauto 9. } { intros c. eauto. } { eapply Forall_impl; [|exact HN]. cbn. auto. }
  exists carry', o. split; auto. split; [symmetry; exact Rw|]. split.
  - intros Hd. exists carry'. auto.
  - intros Hd. destruct (H2 Hd) as (A1 & A2 & A3). split; auto. split; auto. apply nonempty_len. eapply Forall_impl; [|exact A3]. cbn. tauto.
Qed.

Lemma all_nonempty_vec (l : list (list U)) : all_nonempty any rows l <-> Forall nonempty l.
Proof. unfold all_nonempty. split; (intros H; eapply Forall_impl; [|exact H]); cbn; tauto. Qed.
Lemma chain_vec (l : list (list U)) : chain any rows l <-> vec_chain l.
Proof. unfold chain, vec_chain. rewrite all_nonempty_vec. tauto. Qed.
Definition vec_laws : ChunkLaws (vec_chunk target) any rows.
Proof.
  refine (Build_ChunkLaws (vec_chunk target) any rows Htarget (fun _ _ => eq_refl) _ _ _ vc_settling _ _ _).
  - intros in1 in2 H1 H2. apply chain_vec in H1, H2. setoid_rewrite all_nonempty_vec. apply vc_merge_law; auto.
  - intros input F res H1. apply chain_vec in H1. setoid_rewrite all_nonempty_vec. apply vc_extract_law; auto.
  - intros input F res H1. apply chain_vec in H1. setoid_rewrite all_nonempty_vec. apply vc_advance_law; auto.
  - exists None. split; auto. apply open_nil.
  - intros out queue new HS HN _. apply all_nonempty_vec in HN. destruct (vc_settle_ok false out queue new HS HN) as (c & o & E & Rw & H1 & _). exists (held c), o. auto.
  - intros out queue new HS HN _. apply all_nonempty_vec in HN. destruct (vc_settle_ok true out queue new HS HN) as (c & o & E & Rw & _ & H2). destruct (H2 eq_refl) as (-> & G & N). exists o. split; auto. split; [|split; auto; apply all_nonempty_vec; auto].
    rewrite Rw. cbn. rewrite app_nil_r. auto.
Defined.
End Vec.
