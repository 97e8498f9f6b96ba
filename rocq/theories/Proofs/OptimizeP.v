(** Optimizing a scope tree keeps its meaning. *)
From Verif Require Export Proofs.DdirMeansP Spec.DdirSpec.
From Verif Require Import Base.Collections Base.Arrays Base.Order.
Local Open Scope nat_scope.
Local Notation always := (fun _ : itime => True).

(** ** Composing linear operators *)
Local Notation result := (row * itime * Z)%type.
Lemma flat_map_flat_map' {A B C} (f : A -> list B) (g : B -> list C) l : flat_map g (flat_map f l) = flat_map (fun x => flat_map g (f x)) l.
Proof. induction l as [|x l IH]; simpl; auto. rewrite flat_map_app, IH; auto. Qed.
Lemma flat_map_map' {A B C} (f : A -> B) (g : B -> list C) l : flat_map g (map f l) = flat_map (fun x => g (f x)) l.
Proof. induction l as [|x l IH]; simpl; auto. rewrite IH; auto. Qed.
Lemma map_flat_map' {A B C} (f : A -> list B) (g : B -> C) l : map g (flat_map f l) = flat_map (fun x => map g (f x)) l.
Proof. induction l as [|x l IH]; simpl; auto. rewrite map_app, IH; auto. Qed.
Lemma quiet_app level iter a b rs : quiet_ops level iter (a ++ b) rs = quiet_ops level iter b (quiet_ops level iter a rs).
Proof. revert rs. induction a as [|op a IH]; intros rs; simpl; auto. Qed.
Lemma quiet_flat level iter ops rs : quiet_ops level iter ops rs = flat_map (fun x => quiet_ops level iter ops [x]) rs.
Proof.
  revert rs. induction ops as [|op ops IH]; intros rs; simpl.
  - induction rs as [|x rs IH]; simpl; [reflexivity|]. f_equal; auto.
  - rewrite (IH (flat_map _ rs)). rewrite flat_map_flat_map'. apply flat_map_ext. intros x. rewrite app_nil_r. symmetry. apply IH.
Qed.

Lemma join_tmin_r (t : itime) : join t tmin = t.
Proof. apply tle_antisym; [apply join_lub; [apply tle_refl|apply tmin_le]|apply join_ub_l]. Qed.
Definition scale (m : Z) (x : result) : result := (fst x, (m * snd x)%Z).
Definition retime (f : itime -> itime) (x : result) : result := (fst (fst x), f (snd (fst x)), snd x).
Lemma quietly_map {A B} (f : A -> B) (o : option (list A)) : quietly (option_map (map f) o) = map f (quietly o).
Proof. destruct o; auto. Qed.
Ltac op_cases op :=
  destruct op as [p|cond| |fld| |lt]; simpl;
  repeat match goal with
         | |- context [match eval ?t ?e with _ => _ end] => destruct (eval t e) as [?|]; simpl; auto
         | |- context [match as_int ?t with _ => _ end] => destruct (as_int t) as [?|]; simpl; auto
         | |- context [if truthy ?t then _ else _] => destruct (truthy t); simpl; auto
         | |- context [match ?l with VInt _ => _ | _ => _ end] => destruct l; simpl; auto
         end; try reflexivity.
Lemma op_scale level iter op m x : op_results level iter op (scale m x) = option_map (map (scale m)) (op_results level iter op x).
Proof.
  destruct x as [[[k v] t] d]. unfold scale. op_cases op.
  - f_equal. f_equal. f_equal. lia.
  - rewrite !map_map. auto.
Qed.
Lemma op_retime level iter op f x : delays op = false -> op_results level iter op (retime f x) = option_map (map (retime f)) (op_results level iter op x).
Proof. intros H. destruct x as [[[k v] t] d]. unfold retime. revert H. op_cases op; try discriminate. rewrite map_map. auto. Qed.
Lemma op_iter level iter iter' op x : times op = false -> op_results level iter op x = op_results level iter' op x.
Proof. destruct x as [[[k v] t] d]. destruct op; simpl; auto; discriminate. Qed.

Lemma quiet_map (g : result -> result) level iter ops rs :
  (forall op x, In op ops -> op_results level iter op (g x) = option_map (map g) (op_results level iter op x)) ->
  quiet_ops level iter ops (map g rs) = map g (quiet_ops level iter ops rs).
Proof.
  revert rs. induction ops as [|op ops IH]; intros rs H; cbn [quiet_ops]; auto.
  rewrite <- IH by (intros; apply H; right; auto). f_equal. rewrite flat_map_map', map_flat_map'. apply flat_map_ext. intros x.
  rewrite H by (left; auto). apply quietly_map.
Qed.
Lemma quiet_scale level iter ops m rs : quiet_ops level iter ops (map (scale m) rs) = map (scale m) (quiet_ops level iter ops rs).
Proof. apply quiet_map. intros. apply op_scale. Qed.
Lemma quiet_retime level iter ops f rs : existsb delays ops = false -> quiet_ops level iter ops (map (retime f) rs) = map (retime f) (quiet_ops level iter ops rs).
Proof.
  intros H. apply quiet_map. intros op x Hi. apply op_retime. destruct (delays op) eqn:E; auto.
  assert (existsb delays ops = true) by (apply existsb_exists; eauto). congruence.
Qed.
Lemma quiet_iter level iter iter' ops rs : existsb times ops = false -> quiet_ops level iter ops rs = quiet_ops level iter' ops rs.
Proof.
  revert rs. induction ops as [|op ops IH]; intros rs; cbn [quiet_ops existsb]; auto. rewrite orb_false_iff. intros (H1 & H2).
  rewrite IH by auto. f_equal. apply flat_map_ext. intros x. rewrite (op_iter _ iter iter') by auto. auto.
Qed.
Lemma times_delays ops : existsb times ops = false -> existsb delays ops = false.
Proof. induction ops as [|op ops IH]; simpl; auto. rewrite !orb_false_iff. intros (H1 & H2). split; auto. destruct op; auto; discriminate. Qed.

Lemma linear_compose a b level c : (existsb delays a = true -> existsb times b = true -> False) ->
  linear_of (a ++ b) level c = linear_of b level (linear_of a level c).
Proof.
  intros Hc. unfold linear_of. rewrite flat_map_flat_map'. apply flat_map_ext. intros [[d t] r]. cbn [fst snd].
  rewrite flat_map_map'. rewrite quiet_app, (quiet_flat _ _ b). rewrite map_flat_map'.
  set (rs := quiet_ops level _ a _). set (it := iter_at_level level t).
  assert (E : forall x, In x rs -> map (fun y : result => (fst (fst y), join t (snd (fst y)), (r * snd y)%Z)) (quiet_ops level it b [x]) =
    map (fun y : result => (fst (fst y), join (join t (snd (fst x))) (snd (fst y)), (r * snd x * snd y)%Z))
      (quiet_ops level (iter_at_level level (join t (snd (fst x)))) b [(fst (fst x), tmin, 1%Z)])).
  { intros x Hx. destruct (existsb delays a) eqn:Da.
    - destruct (existsb times b) eqn:Tb; [exfalso; auto|]. rewrite (quiet_iter _ (iter_at_level level (join t (snd (fst x)))) it) by auto.
      assert (Ex : [x] = map (retime (fun _ => snd (fst x))) (map (scale (snd x)) [(fst (fst x), tmin, 1%Z)])).
      { destruct x as [[dx tx] mx]. unfold scale, retime; cbn [map fst snd]. rewrite Z.mul_1_r. auto. }
      rewrite Ex, quiet_retime, quiet_scale, !map_map by (apply times_delays; auto).
      assert (Et : quiet_ops level it b [(fst (fst x), tmin, 1%Z)] = map (retime (fun _ => tmin)) (quiet_ops level it b [(fst (fst x), tmin, 1%Z)])).
      { rewrite <- quiet_retime by (apply times_delays; auto). auto. }
      rewrite Et, !map_map. apply map_ext. intros y. unfold retime, scale. cbn [fst snd]. rewrite join_tmin_r. f_equal. lia.
    - assert (Ex : snd (fst x) = tmin).
      { unfold rs in Hx. assert (Et : quiet_ops level (iter_at_level level t) a [(d, tmin, 1%Z)] = map (retime (fun _ => tmin)) (quiet_ops level (iter_at_level level t) a [(d, tmin, 1%Z)])).
        { rewrite <- quiet_retime by auto. auto. }
        rewrite Et in Hx. apply in_map_iff in Hx as (y & <- & _). auto. }
      rewrite Ex, join_tmin_r. fold it.
      assert (Ex' : [x] = map (scale (snd x)) [(fst (fst x), tmin, 1%Z)]).
      { destruct x as [[dx tx] mx]. unfold scale; cbn [map fst snd] in *. rewrite Z.mul_1_r. subst; auto. }
      rewrite Ex' at 1. rewrite quiet_scale, map_map. apply map_ext. intros y. unfold scale. cbn [fst snd]. f_equal. lia. }
  clearbody rs. induction rs as [|x rs IH]; auto. cbn [flat_map]. rewrite E by (left; auto). f_equal. apply IH. intros y Hy. apply E. right; auto.
Qed.

(** ** Items, looked at with all values known *)
Definition orel (o1 o2 : option coll) : Prop := match o1, o2 with Some a, Some b => same_coll a b | None, None => True | _, _ => False end.
Lemma orel_refl o : orel o o. Proof. destruct o; simpl; auto. apply same_coll_refl. Qed.
Lemma orel_sym o1 o2 : orel o1 o2 -> orel o2 o1. Proof. destruct o1, o2; simpl; auto. apply same_coll_sym. Qed.
Lemma orel_looks rs l1 l2 : (forall r, In r rs -> orel (l1 r) (l2 r)) -> looks_like same_coll rs l1 l2.
Proof. intros H r c Hr E. specialize (H r Hr). rewrite E in H. simpl in H. destruct (l2 r) as [c'|]; [eauto|contradiction]. Qed.

Definition leaves (depth : nat) (exs outs : list coll) : Prop :=
  Forall2 (fun e o => exists l, at_times (left_time (S depth)) e = Some l /\ same_coll o l) exs outs.
Definition item_full (depth : nat) (look : Ref -> option coll) (it : Item) (v : rvalue) : Prop :=
  match it, v with
  | IOp n, VOp c => node_means depth look n c
  | ISub child, VSub outs => exists ims exs, imported look (sc_imports child) = Some ims /\ scope_means (S depth) child ims exs /\ leaves depth exs outs
  | _, _ => False
  end.

Lemma imported_rel look1 look2 is ims : (forall r, In r (import_refs is) -> orel (look1 r) (look2 r)) -> imported look1 is = Some ims ->
  exists ims', imported look2 is = Some ims' /\ Forall2 same_coll ims ims'.
Proof.
  unfold imported, import_refs. revert ims. induction is as [|im is IH]; intros ims H.
  - intros [= <-]. exists []. auto.
  - intros Q. apply mapO_cons_inv in Q as (y & r & -> & E & M). destruct (IH r) as (ims' & E' & F'); auto.
    { intros x Hx. apply H. simpl. apply in_or_app; auto. }
    simpl. destruct (im_from im) as [x| |] eqn:Ei; try discriminate. simpl in H.
    assert (Hx : orel (look1 x) (look2 x)). { apply H. rewrite Ei. left; auto. }
    rewrite E in Hx. simpl in Hx. destruct (look2 x) as [c|]; [|contradiction].
    rewrite E'. exists (c :: ims'). auto.
Qed.
Lemma Forall2_same_refl l : Forall2 same_coll l l. Proof. induction l; constructor; auto. apply same_coll_refl. Qed.
Lemma Forall2_same_sym l1 l2 : Forall2 same_coll l1 l2 -> Forall2 same_coll l2 l1.
Proof. induction 1; constructor; auto. apply same_coll_sym; auto. Qed.
Lemma Forall2_same_trans l1 l2 l3 : Forall2 same_coll l1 l2 -> Forall2 same_coll l2 l3 -> Forall2 same_coll l1 l3.
Proof.
  intros H. revert l3. induction H as [|a b l1 l2 Hab _ IH]; intros l3 H3; inversion H3; subst; constructor; auto. eapply same_coll_trans; eauto.
Qed.
Lemma at_times_same f a b l : (forall t, f t <> None) -> same_coll a b -> at_times f a = Some l -> exists l', at_times f b = Some l' /\ same_coll l l'.
Proof.
  intros Hf Hab E. destruct (at_times_total f b Hf) as (l' & E'). exists l'. split; auto.
  apply agree_same_coll. apply (at_times_agree always always f a b); auto. apply agree_same_coll; auto.
Qed.
Lemma feedback_total d t : feedback_time (S d) t <> None.
Proof. destruct (feedback_time_spec d t) as (t' & -> & _). discriminate. Qed.

Lemma bind_means_rel depth look1 look2 bs v c : depth <> 0 -> (forall b, In b bs -> orel (look1 (bi_value b)) (look2 (bi_value b))) ->
  bind_means depth look1 bs v c -> bind_means depth look2 bs v c.
Proof.
  intros Hd H. unfold bind_means. destruct (find _ bs) as [b|] eqn:Ef; auto.
  intros (src & l & E & F & G). apply find_some in Ef as (Hb & _). specialize (H b Hb). rewrite E in H. simpl in H.
  destruct (look2 (bi_value b)) as [src'|]; [|contradiction]. destruct depth as [|d]; [congruence|].
  destruct (at_times_same (feedback_time (S d)) src src' l) as (l' & E' & S'); auto using feedback_total.
  exists src', l'. split; auto. split; auto. eapply same_coll_trans; eauto.
Qed.
Lemma exports_rel look1 look2 (es : list Export) outs ex : (forall e, In e es -> orel (look1 (ex_value e)) (look2 (ex_value e))) ->
  mapO (fun e => look1 (ex_value e)) es = Some outs -> Forall2 same_coll outs ex ->
  exists outs', mapO (fun e => look2 (ex_value e)) es = Some outs' /\ Forall2 same_coll outs' ex.
Proof.
  intros H. revert outs ex. induction es as [|e es IH]; intros outs ex.
  - intros [= <-] F. exists []. auto.
  - intros Q F. apply mapO_cons_inv in Q as (y & r & -> & E & M). inversion F as [|? z ? ex' Hz Fr]; subst.
    destruct (IH ltac:(intros; apply H; right; auto) r ex' M Fr) as (o' & E' & F').
    pose proof (H e (or_introl eq_refl)) as He. rewrite E in He. simpl in He. destruct (look2 (ex_value e)) as [y'|] eqn:E2; [|contradiction].
    exists (y' :: o'). split; [simpl; rewrite E2, E'; auto|]. constructor; auto. eapply same_coll_trans; [apply same_coll_sym; eauto|auto].
Qed.

(** The meaning of a scope does not tell lists for the same collection apart. *)
Lemma resolve_imports vals ims1 ims2 vars r : Forall2 same_coll ims1 ims2 -> orel (resolve vals ims1 vars r) (resolve vals ims2 vars r).
Proof.
  intros H. destruct r as [i|i|i|i j]; simpl; try apply orel_refl.
  revert i. induction H as [|a b l1 l2 Hab _ IH]; intros [|i]; simpl; auto.
Qed.
Theorem scope_closed s : forall depth ims1 ims2 ex1 ex2, Forall2 same_coll ims1 ims2 -> Forall2 same_coll ex1 ex2 ->
  scope_means depth s ims1 ex1 -> scope_means depth s ims2 ex2.
Proof.
  induction s as [s IHs] using scope_ind'. intros depth ims1 ims2 ex1 ex2 Hi He M.
  apply scope_means_iff in M as (vars & vals & L & (N & I) & B & V & D & outs & O & X). apply scope_means_iff.
  exists vars, vals. split; auto. split; [split; auto|].
  - intros n it E. specialize (I n it E). destruct it as [node|child]; simpl in *.
    + destruct I as (c & F & K). exists c. split; auto. eapply node_closed; [|apply same_coll_refl|exact K].
      apply orel_looks. intros r _. apply resolve_imports; auto.
    + destruct I as (i1 & e1 & u1 & F & G & K & W).
      destruct (imported_rel _ (resolve (firstn n vals) ims2 vars) _ _ (fun r _ => resolve_imports _ _ _ _ r Hi) G) as (i2 & G2 & W2).
      exists i2, e1, u1. split; auto. split; auto. split; auto. eapply IHs; [eapply nth_error_In; eauto|exact W2| |exact K]. apply Forall2_same_refl.
  - split; auto. split.
    + intros v c E. specialize (V v c E). eapply bind_means_rel; [|intros; apply resolve_imports; eauto|exact V].
      apply D. intros Q. rewrite Q in L. destruct vars; [destruct v|]; discriminate.
    + split; auto. destruct (exports_rel (resolve vals ims1 vars) (resolve vals ims2 vars) _ _ _ (fun e _ => resolve_imports _ _ _ _ _ Hi) O X) as (o2 & O2 & X2).
      exists o2. split; auto. eapply Forall2_same_trans; eauto.
Qed.

Lemma item_full_rel depth look1 look2 it v : (forall r, In r (item_refs it) -> orel (look1 r) (look2 r)) -> item_full depth look1 it v -> item_full depth look2 it v.
Proof.
  intros H. destruct it as [n|c], v as [o|outs]; simpl; auto.
  - apply node_closed; [|apply same_coll_refl]. apply orel_looks; auto.
  - intros (ims & exs & E & M & W). destruct (imported_rel look1 look2 _ _ H E) as (ims' & E' & F').
    exists ims', exs. split; auto. split; auto. eapply scope_closed; [exact F'|apply Forall2_same_refl|exact M].
Qed.

(** Changing the references. *)
Definition after (look : Ref -> option coll) (f : Ref -> option Ref) (r : Ref) : option coll := match f r with Some r' => look r' | None => None end.
Lemma mapO_after look f rs rs' : mapO f rs = Some rs' -> mapO look rs' = mapO (after look f) rs.
Proof.
  revert rs'. induction rs as [|r rs IH]; intros rs' Q.
  - injection Q as <-. auto.
  - apply mapO_cons_inv in Q as (y & l & -> & E & M). simpl. unfold after at 1. rewrite E, (IH l); auto.
Qed.
Lemma node_each_means depth look f n n' out : node_each f n = Some n' -> node_means depth look n' out <-> node_means depth (after look f) n out.
Proof.
  unfold after. destruct n as [r ops|rs|r|l r p|r red|r lab]; simpl.
  - destruct (f r) as [r'|]; [|discriminate]. intros [= <-]. simpl. tauto.
  - destruct (mapO f rs) as [rs'|] eqn:E; [|discriminate]. intros [= <-]. simpl. rewrite (mapO_after look f rs rs' E). unfold after. tauto.
  - destruct (f r) as [r'|]; [|discriminate]. intros [= <-]. simpl. tauto.
  - destruct (f l) as [l'|]; [|discriminate]. destruct (f r) as [r'|]; [|discriminate]. intros [= <-]. simpl. tauto.
  - destruct (f r) as [r'|]; [|discriminate]. intros [= <-]. simpl. tauto.
  - destruct (f r) as [r'|]; [|discriminate]. intros [= <-]. simpl. tauto.
Qed.
Lemma imports_each look f is is' : mapO (import_each f) is = Some is' -> imported look is' = imported (after look f) is.
Proof.
  unfold imported. revert is'. induction is as [|im is IH]; intros is' Q.
  - injection Q as <-. auto.
  - apply mapO_cons_inv in Q as (y & l & -> & E & M). simpl. rewrite (IH l M). clear IH. unfold import_each in E.
    destruct (im_from im) as [r|k|nm] eqn:Ei.
    + unfold after at 2. destruct (f r) as [r'|]; [|discriminate]. injection E as <-. reflexivity.
    + injection E as <-. rewrite Ei. auto.
    + injection E as <-. rewrite Ei. auto.
Qed.
Lemma means_header depth nm nm' ims ims' vs its bs es i e :
  scope_means depth (MkScope nm ims vs its bs es) i e <-> scope_means depth (MkScope nm' ims' vs its bs es) i e.
Proof. rewrite !scope_means_iff. simpl. tauto. Qed.
Lemma item_each_means depth look f it it' v : item_each f it = Some it' -> item_full depth look it' v <-> item_full depth (after look f) it v.
Proof.
  destruct it as [n|[nm is vs its bs es]]; simpl.
  - destruct (node_each f n) as [n'|] eqn:E; [|discriminate]. intros [= <-]. destruct v; simpl; [|tauto]. apply node_each_means; auto.
  - destruct (mapO (import_each f) is) as [is'|] eqn:E; [|discriminate]. intros [= <-]. destruct v as [|outs]; simpl; [tauto|].
    rewrite (imports_each look f is is' E). split; intros (ims & exs & A & B & C); exists ims, exs; (split; [exact A|]); (split; [|exact C]);
      [apply (proj1 (means_header (S depth) nm nm is' is vs its bs es ims exs)), B|apply (proj1 (means_header (S depth) nm nm is is' vs its bs es ims exs)), B].
Qed.

(** ** The constraints of a scope, of which some items are dead *)
Definition live (dead : list bool) (n : nat) : Prop := nth_error dead n = Some false.
Definition items_sol (depth : nat) (s : Scope) (dead : list bool) (look : Ref -> option coll) (vals : list rvalue) : Prop :=
  length vals = length (sc_items s) /\
  forall n it v, nth_error (sc_items s) n = Some it -> live dead n -> nth_error vals n = Some v -> item_full depth look it v.
Definition rest_sol (depth : nat) (s : Scope) (vars : list coll) (look : Ref -> option coll) (exports : list coll) : Prop :=
  length vars = length (sc_vars s) /\
  (Forall (fun b => bi_var b < length (sc_vars s)) (sc_binds s) /\ NoDup (map bi_var (sc_binds s))) /\
  (forall v c, nth_error vars v = Some c -> bind_means depth look (sc_binds s) v c) /\
  (sc_vars s <> [] -> depth <> 0) /\
  exists outs, mapO (fun e => look (ex_value e)) (sc_exports s) = Some outs /\ Forall2 same_coll outs exports.
Definition sol (depth : nat) (s : Scope) (dead : list bool) (imports exports : list coll) : Prop :=
  exists vars vals, let look := resolve vals imports vars in items_sol depth s dead look vals /\ rest_sol depth s vars look exports.

(** All references that live items, binds and exports make. *)
Definition refs_live (s : Scope) (dead : list bool) (P : nat -> Ref -> Prop) : Prop :=
  (forall n it r, nth_error (sc_items s) n = Some it -> live dead n -> In r (item_refs it) -> P n r) /\
  (forall b, In b (sc_binds s) -> P (length (sc_items s)) (bi_value b)) /\
  (forall e, In e (sc_exports s) -> P (length (sc_items s)) (ex_value e)).
Definition target_live (dead : list bool) (r : Ref) : Prop := forall m, target r = Some m -> live dead m.
Definition live_ok (s : Scope) (dead : list bool) : Prop :=
  length dead = length (sc_items s) /\ refs_live s dead (fun n r => ref_ok s n r /\ target_live dead r).

Lemma refs_live_impl s dead (P Q : nat -> Ref -> Prop) : (forall n r, P n r -> Q n r) -> refs_live s dead P -> refs_live s dead Q.
Proof. intros H (A & B & C). split; [|split]; intros; eauto. Qed.

Lemma nth_error_firstn_lt' {X} (l : list X) : forall n i, i < n -> nth_error (firstn n l) i = nth_error l i.
Proof. induction l as [|a l IH]; intros [|n] [|i] H; simpl; auto; try lia. apply IH. lia. Qed.
Lemma mapO_ext {A B} (f g : A -> option B) l : (forall x, In x l -> f x = g x) -> mapO f l = mapO g l.
Proof. induction l as [|x l IH]; simpl; intros H; auto. rewrite (H x), IH; auto. Qed.
Lemma live_bound dead n : live dead n -> n < length dead.
Proof. intros H. apply nth_error_Some. unfold live in H. congruence. Qed.

(* what is known before an item is all that its references see *)
Lemma resolve_before s vals imports vars n r : ref_ok s n r -> resolve (firstn n vals) imports vars r = resolve vals imports vars r.
Proof.
  intros H. assert (E : forall i, i < n -> nth_error (firstn n vals) i = nth_error vals i).
  { intros i Hi. apply nth_error_firstn_lt'; auto. }
  destruct r as [i|i|i|i j]; simpl in *; auto; destruct H as (H & _); rewrite E; auto.
Qed.
Lemma means_sol depth s imports exports : refs_ok s ->
  scope_means depth s imports exports <-> sol depth s (repeat false (length (sc_items s))) imports exports.
Proof.
  intros (R & _). rewrite scope_means_iff. unfold sol, items_sol, rest_sol, live.
  split; intros (vars & vals & H).
  - destruct H as (L & (N & I) & Rest). exists vars, vals. split; [split; auto|split; auto].
    intros n it v E _ Ev. specialize (I n it E). destruct it as [node|child]; simpl in I |- *.
    + destruct I as (c & F & K). rewrite Ev in F. injection F as ->. revert K. apply node_closed; [|apply same_coll_refl].
      apply orel_looks. intros r Hr. rewrite (resolve_before s) by (eapply (R n (IOp node)); eauto). apply orel_refl.
    + destruct I as (i1 & e1 & u1 & F & G & K & W). rewrite Ev in F. injection F as ->. exists i1, e1. split; [|auto].
      rewrite <- G. unfold imported. apply mapO_ext. intros im Hm. destruct (im_from im) as [r| |] eqn:Er; auto.
      symmetry. apply (resolve_before s). eapply (R n (ISub child)); eauto. simpl. unfold import_refs. apply in_flat_map. exists im. rewrite Er. simpl; auto.
  - destruct H as ((N & I) & L & Rest). exists vars, vals. split; auto. split; [split; auto|auto].
    intros n it E. assert (Hn : n < length (sc_items s)) by (apply nth_error_Some; congruence).
    destruct (nth_error vals n) as [v|] eqn:Ev; [|apply nth_error_None in Ev; lia].
    assert (Hd : nth_error (repeat false (length (sc_items s))) n = Some false).
    { apply nth_error_repeat; auto. }
    specialize (I n it v E Hd Ev). destruct it as [node|child], v as [c|outs]; simpl in I; try contradiction; simpl.
    + exists c. split; auto. revert I. apply node_closed; [|apply same_coll_refl].
      apply orel_looks. intros r Hr. rewrite (resolve_before s) by (eapply (R n (IOp node)); eauto). apply orel_refl.
    + destruct I as (i1 & e1 & G & K & W). exists i1, e1, outs. split; auto. split; [|auto].
      rewrite <- G. unfold imported. apply mapO_ext. intros im Hm. destruct (im_from im) as [r| |] eqn:Er; auto.
      apply (resolve_before s). eapply (R n (ISub child)); eauto. simpl. unfold import_refs. apply in_flat_map. exists im. rewrite Er. simpl; auto.
Qed.

(** The binds and exports of a scope whose references are changed. *)
Definition bind_each (f : Ref -> option Ref) (b : Bind) : option Bind := v <- f (bi_value b); Some {| bi_var := bi_var b; bi_value := v |}.
Definition export_each (f : Ref -> option Ref) (e : Export) : option Export := v <- f (ex_value e); Some {| ex_name := ex_name e; ex_value := v |}.
Lemma bind_each_vars f bs bs' : mapO (bind_each f) bs = Some bs' -> map bi_var bs' = map bi_var bs.
Proof.
  revert bs'. induction bs as [|b bs IH]; intros bs' Q; [injection Q as <-; auto|].
  apply mapO_cons_inv in Q as (y & l & -> & E & M). simpl. rewrite (IH l M). unfold bind_each in E. destruct (f (bi_value b)); [|discriminate].
  injection E as <-. auto.
Qed.
Lemma find_bind_each f bs bs' v : mapO (bind_each f) bs = Some bs' ->
  match find (fun b => bi_var b =? v) bs with
  | Some b => exists b', bind_each f b = Some b' /\ find (fun b => bi_var b =? v) bs' = Some b'
  | None => find (fun b => bi_var b =? v) bs' = None
  end.
Proof.
  revert bs'. induction bs as [|b bs IH]; intros bs' Q; [injection Q as <-; simpl; auto|].
  apply mapO_cons_inv in Q as (y & l & -> & E & M). specialize (IH l M).
  assert (Ev : bi_var y = bi_var b) by (unfold bind_each in E; destruct (f (bi_value b)); [|discriminate]; injection E as <-; auto).
  simpl. rewrite Ev. destruct (bi_var b =? v); [eauto|auto].
Qed.
Lemma bind_each_means depth look f bs bs' v c : mapO (bind_each f) bs = Some bs' ->
  bind_means depth look bs' v c <-> bind_means depth (after look f) bs v c.
Proof.
  intros M. pose proof (find_bind_each f bs bs' v M) as H. unfold bind_means. destruct (find _ bs) as [b|].
  - destruct H as (b' & E & ->). unfold bind_each in E. unfold after. destruct (f (bi_value b)) as [r|]; [|discriminate]. injection E as <-. simpl. tauto.
  - rewrite H. tauto.
Qed.
Lemma export_each_means look f es es' : mapO (export_each f) es = Some es' ->
  mapO (fun e => look (ex_value e)) es' = mapO (fun e => after look f (ex_value e)) es.
Proof.
  revert es'. induction es as [|e es IH]; intros es' Q; [injection Q as <-; auto|].
  apply mapO_cons_inv in Q as (y & l & -> & E & M). simpl. rewrite (IH l M). unfold export_each in E. unfold after at 2.
  destruct (f (ex_value e)) as [r|]; [|discriminate]. injection E as <-. auto.
Qed.
Lemma rest_each depth f s s' vars look look' ex :
  sc_vars s' = sc_vars s -> mapO (bind_each f) (sc_binds s) = Some (sc_binds s') -> mapO (export_each f) (sc_exports s) = Some (sc_exports s') ->
  (forall b, In b (sc_binds s) -> orel (look (bi_value b)) (after look' f (bi_value b))) ->
  (forall e, In e (sc_exports s) -> orel (look (ex_value e)) (after look' f (ex_value e))) ->
  rest_sol depth s vars look ex <-> rest_sol depth s' vars look' ex.
Proof.
  intros Ev Eb Ee Hb He. unfold rest_sol. rewrite Ev. rewrite (bind_each_vars _ _ _ Eb).
  assert (F : Forall (fun b => bi_var b < length (sc_vars s)) (sc_binds s') <-> Forall (fun b => bi_var b < length (sc_vars s)) (sc_binds s)).
  { rewrite <- (Forall_map bi_var (fun v => v < length (sc_vars s)) (sc_binds s')), <- (Forall_map bi_var (fun v => v < length (sc_vars s)) (sc_binds s)), (bind_each_vars _ _ _ Eb). tauto. }
  rewrite F. clear F.
  split; intros (L & B & V & D & outs & O & X); (split; [exact L|]); (split; [exact B|]);
    (assert (Dv : forall v c, nth_error vars v = Some c -> depth <> 0) by
       (intros v c E; apply D; intros Q; rewrite Q in L; destruct vars; [destruct v|]; discriminate));
    (split; [|split; [exact D|]]).
  - intros v c E. apply (bind_each_means depth look' f _ _ v c Eb). eapply bind_means_rel; [eapply Dv; eauto|exact Hb|auto].
  - destruct (exports_rel look (after look' f) _ _ _ He O X) as (o & O' & X'). exists o. split; auto. rewrite (export_each_means look' f _ _ Ee). auto.
  - intros v c E. specialize (V v c E). apply (bind_each_means depth look' f _ _ v c Eb) in V. eapply bind_means_rel; [eapply Dv; eauto| |exact V].
    intros b Hi. apply orel_sym; auto.
  - rewrite (export_each_means look' f _ _ Ee) in O.
    destruct (exports_rel (after look' f) look _ _ _ (fun e Hi => orel_sym _ _ (He e Hi)) O X) as (o & O' & X'). exists o. split; auto.
Qed.

(** ** Changing every reference *)
Lemma mapO_nth {A B} (f : A -> option B) l l' : mapO f l = Some l' ->
  length l' = length l /\ (forall n x, nth_error l n = Some x -> exists y, nth_error l' n = Some y /\ f x = Some y) /\
  (forall n y, nth_error l' n = Some y -> exists x, nth_error l n = Some x /\ f x = Some y).
Proof.
  revert l'. induction l as [|x l IH]; intros l' Q.
  - injection Q as <-. split; auto. split; intros [|n] ? E; discriminate.
  - apply mapO_cons_inv in Q as (y & r & -> & E & M). destruct (IH r M) as (L & H1 & H2). simpl. split; [auto|]. split.
    + intros [|n] z Ez; simpl in *; [injection Ez as <-; eauto|auto].
    + intros [|n] z Ez; simpl in *; [injection Ez as <-; eauto|auto].
Qed.
Lemma mapO_in {A B} (f : A -> option B) l l' y : mapO f l = Some l' -> In y l' -> exists x, In x l /\ f x = Some y.
Proof.
  intros M Hy. apply In_nth_error in Hy as (n & E). destruct (mapO_nth f l l' M) as (_ & _ & H). destruct (H n y E) as (x & Ex & Fx).
  exists x. split; auto. eapply nth_error_In; eauto.
Qed.
Lemma mapO_some {A B} (f : A -> option B) l : (forall x, In x l -> exists y, f x = Some y) -> exists l', mapO f l = Some l'.
Proof.
  induction l as [|x l IH]; intros H; simpl; [eauto|]. destruct (H x (or_introl eq_refl)) as (y & ->).
  destruct IH as (l' & ->); [intros; apply H; right; auto|eauto].
Qed.

Lemma node_each_refs f n n' : node_each f n = Some n' -> mapO f (node_refs n) = Some (node_refs n').
Proof.
  destruct n as [r ops|rs|r|l r p|r red|r lab]; simpl.
  all: try (destruct (f r) as [r'|]; [|discriminate]; intros [= <-]; reflexivity).
  - destruct (mapO f rs) as [rs'|]; [|discriminate]. intros [= <-]. reflexivity.
  - destruct (f l) as [l'|]; [|discriminate]. destruct (f r) as [r'|]; [|discriminate]. intros [= <-]. reflexivity.
Qed.
Lemma node_each_some f n : (forall r, In r (node_refs n) -> exists r', f r = Some r') -> exists n', node_each f n = Some n'.
Proof.
  destruct n as [r ops|rs|r|l r p|r red|r lab]; simpl; intros H.
  all: try (destruct (H r (or_introl eq_refl)) as (r' & ->); eauto; fail).
  - destruct (mapO_some f rs H) as (rs' & ->). eauto.
  - destruct (H l (or_introl eq_refl)) as (l' & ->). destruct (H r (or_intror (or_introl eq_refl))) as (r' & ->). eauto.
Qed.
Lemma imports_each_refs f is is' r' : mapO (import_each f) is = Some is' -> In r' (import_refs is') -> exists r, In r (import_refs is) /\ f r = Some r'.
Proof.
  intros M H. unfold import_refs in H. apply in_flat_map in H as (im' & Hi & Hr). destruct (mapO_in _ _ _ _ M Hi) as (im & Hm & E).
  unfold import_each in E. destruct (im_from im) as [r| |] eqn:Er.
  - destruct (f r) as [x|] eqn:Ef; [|discriminate]. injection E as <-. simpl in Hr. destruct Hr as [<-|[]]. exists r. split; auto.
    unfold import_refs. apply in_flat_map. exists im. rewrite Er. simpl; auto.
  - injection E as <-. rewrite Er in Hr. destruct Hr.
  - injection E as <-. rewrite Er in Hr. destruct Hr.
Qed.
Lemma imports_each_some f is : (forall r, In r (import_refs is) -> exists r', f r = Some r') -> exists is', mapO (import_each f) is = Some is'.
Proof.
  intros H. apply mapO_some. intros im Hi. unfold import_each. destruct (im_from im) as [r| |] eqn:Er; eauto.
  destruct (H r) as (r' & ->); [|eauto]. unfold import_refs. apply in_flat_map. exists im. rewrite Er. simpl; auto.
Qed.
Lemma item_each_refs f it it' r' : item_each f it = Some it' -> In r' (item_refs it') -> exists r, In r (item_refs it) /\ f r = Some r'.
Proof.
  destruct it as [n|[nm is vs its bs es]]; simpl.
  - destruct (node_each f n) as [n'|] eqn:E; [|discriminate]. intros [= <-]. simpl. apply (mapO_in f). apply node_each_refs; auto.
  - destruct (mapO (import_each f) is) as [is'|] eqn:E; [|discriminate]. intros [= <-]. simpl. apply imports_each_refs; auto.
Qed.
Lemma item_each_some f it : (forall r, In r (item_refs it) -> exists r', f r = Some r') -> exists it', item_each f it = Some it'.
Proof.
  destruct it as [n|[nm is vs its bs es]]; simpl; intros H.
  - destruct (node_each_some f n H) as (n' & ->). eauto.
  - destruct (imports_each_some f is H) as (is' & ->). eauto.
Qed.
(* items of the same kind *)
Definition kind (it it' : Item) : Prop :=
  match it, it' with IOp _, IOp _ => True | ISub c, ISub c' => length (sc_exports c) = length (sc_exports c') | _, _ => False end.
Lemma kind_refl it : kind it it. Proof. destruct it; simpl; auto. Qed.
Lemma item_each_kind f it it' : item_each f it = Some it' -> kind it it'.
Proof.
  destruct it as [n|[nm is vs its bs es]]; simpl.
  - destruct (node_each f n); [|discriminate]. intros [= <-]. simpl; auto.
  - destruct (mapO (import_each f) is); [|discriminate]. intros [= <-]. simpl; auto.
Qed.
Lemma ref_ok_kind s s' n r : sc_vars s' = sc_vars s -> length (sc_imports s') = length (sc_imports s) ->
  (forall m it, target r = Some m -> nth_error (sc_items s) m = Some it -> exists it', nth_error (sc_items s') m = Some it' /\ kind it it') ->
  ref_ok s n r -> ref_ok s' n r.
Proof.
  intros Ev Ei H. destruct r as [i|i|i|i j]; simpl; rewrite ?Ev, ?Ei; auto; simpl in H.
  - intros (Hi & node & E). split; auto. destruct (H i _ eq_refl E) as ([node'|c'] & E' & K); simpl in K; [eauto|contradiction].
  - intros (Hi & c & E & Hj). split; auto. destruct (H i _ eq_refl E) as ([node'|c'] & E' & K); simpl in K; [contradiction|]. exists c'. split; auto. lia.
Qed.
Lemma for_each_inv f s s' : for_each_ref f s = Some s' ->
  mapO (item_each f) (sc_items s) = Some (sc_items s') /\ mapO (bind_each f) (sc_binds s) = Some (sc_binds s') /\
  mapO (export_each f) (sc_exports s) = Some (sc_exports s') /\ sc_name s' = sc_name s /\ sc_imports s' = sc_imports s /\ sc_vars s' = sc_vars s.
Proof.
  unfold for_each_ref, bind_each, export_each. destruct (mapO (item_each f) (sc_items s)) as [its|]; [|discriminate].
  match goal with |- context [mapO ?g (sc_binds s)] => destruct (mapO g (sc_binds s)) as [bs|] end; [|discriminate].
  match goal with |- context [mapO ?g (sc_exports s)] => destruct (mapO g (sc_exports s)) as [es|] end; [|discriminate].
  intros [= <-]. simpl. repeat split; auto.
Qed.
Lemma for_each_some f s : (forall it r, In it (sc_items s) -> In r (item_refs it) -> exists r', f r = Some r') ->
  (forall b, In b (sc_binds s) -> exists r', f (bi_value b) = Some r') -> (forall e, In e (sc_exports s) -> exists r', f (ex_value e) = Some r') ->
  exists s', for_each_ref f s = Some s'.
Proof.
  intros H1 H2 H3. unfold for_each_ref. destruct (mapO_some (item_each f) (sc_items s)) as (its & ->).
  { intros it Hi. apply item_each_some. eauto. }
  match goal with |- context [mapO ?g (sc_binds s)] => destruct (mapO_some g (sc_binds s)) as (bs & Eb) end.
  { intros b Hb. destruct (H2 b Hb) as (r & ->). eauto. }
  match goal with |- context [mapO ?g (sc_exports s)] => destruct (mapO_some g (sc_exports s)) as (es & Ee) end.
  { intros b Hb. destruct (H3 b Hb) as (r & ->). eauto. }
  rewrite Eb, Ee. eauto.
Qed.

(** ** Redirecting *)
Lemma nth_upd_eq {A} (l : list A) i v : i < length l -> nth_error (upd l i v) i = Some v.
Proof. apply get_upd_eq. Qed.
Lemma nth_upd_ne {A} (l : list A) i j v : i <> j -> nth_error (upd l i v) j = nth_error l j.
Proof. apply get_upd_ne. Qed.
Lemma live_upd dead i n : live (upd dead i true) n <-> live dead n /\ n <> i.
Proof.
  unfold live. destruct (Nat.eq_dec n i) as [->|Hn].
  - split; [|intros (_ & []); auto]. destruct (Nat.ltb_spec i (length dead)) as [H|H].
    + rewrite nth_upd_eq by auto. discriminate.
    + intros E. exfalso. assert (i < length (upd dead i true)) by (apply nth_error_Some; congruence). rewrite length_upd in *. lia.
  - rewrite nth_upd_ne by auto. tauto.
Qed.

Section Redirect.
Variables (s : Scope) (dead : list bool) (i j : nat) (ni nj : Node).
Hypothesis (Ok : live_ok s dead) (Ei : nth_error (sc_items s) i = Some (IOp ni)) (Ej : nth_error (sc_items s) j = Some (IOp nj))
  (Li : live dead i) (Lj : live dead j) (Hji : j < i).
Let f := fun r => Some (redirect_ref i j r).

Lemma redirect_some : exists s', redirect i j s dead = Some (s', upd dead i true) /\ for_each_ref f s = Some s'.
Proof.
  unfold redirect. destruct (for_each_some f s) as (s' & E); [unfold f; eauto..|]. exists s'. unfold f in *. rewrite E.
  rewrite put_some by (apply live_bound; auto). auto.
Qed.
Lemma redirect_target r : target (redirect_ref i j r) = target r \/ (r = RLocal i /\ redirect_ref i j r = RLocal j).
Proof. destruct r as [k|k|k|k l]; simpl; auto. destruct (Nat.eqb_spec k i); subst; auto. Qed.
Lemma redirect_ref_not_i n r : ref_ok s n r -> target (redirect_ref i j r) <> Some i.
Proof.
  destruct r as [k|k|k|k l]; simpl; try discriminate.
  - destruct (Nat.eqb_spec k i); simpl; intros _ [= E]; lia.
  - intros (_ & c & E & _) [= ->]. congruence.
Qed.
Lemma redirect_ok s' : for_each_ref f s = Some s' -> live_ok s' (upd dead i true).
Proof.
  intros E. apply for_each_inv in E as (Mi & Mb & Me & _ & Im & Vs). destruct Ok as (Len & Ri & Rb & Re).
  destruct (mapO_nth _ _ _ Mi) as (Ln & N1 & N2).
  assert (G : forall n r, n <= length (sc_items s) -> ref_ok s n r /\ target_live dead r -> ref_ok s' n (redirect_ref i j r) /\ target_live (upd dead i true) (redirect_ref i j r)).
  { intros n r Hn (Rk & Tl). split.
    - apply (ref_ok_kind s); [auto|congruence| |].
      + intros m it _ Em. destruct (N1 m it Em) as (it' & Em' & Fm). exists it'. split; auto. eapply item_each_kind; eauto.
      + destruct r as [k|k|k|k l]; simpl in *; auto. destruct (Nat.eqb_spec k i); auto. subst k. destruct Rk as (Hk & _). split; [lia|]. eauto.
    - intros m Em. apply live_upd. split.
      + destruct (redirect_target r) as [Et|(-> & Et)]; rewrite Et in Em.
        * apply Tl; auto.
        * injection Em as <-. auto.
      + intros ->. eapply redirect_ref_not_i; eauto. }
  split; [rewrite length_upd; congruence|]. split; [|split].
  - intros n it' r' E' L' Hr. destruct (N2 n it' E') as (it & E & F). destruct (item_each_refs _ _ _ _ F Hr) as (r & Hr0 & [= <-]).
    apply G; [apply Nat.lt_le_incl, nth_error_Some; congruence|]. apply (Ri n it r); auto. apply live_upd in L'. tauto.
  - intros b' Hb. destruct (mapO_in _ _ _ _ Mb Hb) as (b & Hb0 & F). unfold bind_each, f in F. injection F as <-. simpl. rewrite Ln. apply G; auto.
  - intros b' Hb. destruct (mapO_in _ _ _ _ Me Hb) as (b & Hb0 & F). unfold export_each, f in F. injection F as <-. simpl. rewrite Ln. apply G; auto.
Qed.

Variables (depth : nat).
Hypothesis (Same : forall look c1 c2, look (RLocal j) = Some c2 -> node_means depth look ni c1 -> node_means depth look nj c2 -> same_coll c1 c2)
  (Give : forall look c, look (RLocal j) = Some c -> node_means depth look nj c -> node_means depth look ni c).
Lemma redirect_keeps s' imports exports : for_each_ref f s = Some s' ->
  sol depth s dead imports exports <-> sol depth s' (upd dead i true) imports exports.
Proof.
  intros E. pose proof (redirect_ok s' E) as Ok'. apply for_each_inv in E as (Mi & Mb & Me & _ & Im & Vs). destruct Ok as (Len & Ri & Rb & Re).
  destruct (mapO_nth _ _ _ Mi) as (Ln & N1 & N2).
  assert (Bi : i < length (sc_items s)) by (apply nth_error_Some; congruence). assert (Bj : j < length (sc_items s)) by lia.
  split; intros (vars & vals & (Lv & I) & Rest).
  - exists vars, vals. set (look := resolve vals imports vars) in *.
    assert (Hij : orel (look (RLocal i)) (look (RLocal j))).
    { destruct (nth_error vals i) as [vi|] eqn:Vi; [|apply nth_error_None in Vi; lia].
      destruct (nth_error vals j) as [vj|] eqn:Vj; [|apply nth_error_None in Vj; lia].
      pose proof (I i _ vi Ei Li Vi) as Ki. pose proof (I j _ vj Ej Lj Vj) as Kj. simpl in Ki, Kj.
      destruct vi as [ci|]; [|contradiction]. destruct vj as [cj|]; [|contradiction].
      assert (E1 : look (RLocal i) = Some ci) by (unfold look; simpl; rewrite Vi; auto).
      assert (E2 : look (RLocal j) = Some cj) by (unfold look; simpl; rewrite Vj; auto).
      rewrite E1, E2. simpl. apply (Same look); auto. }
    assert (Hr : forall r, orel (look r) (after look f r)).
    { intros r. unfold after, f. destruct r as [k|k|k|k l]; try apply orel_refl. unfold redirect_ref. destruct (Nat.eqb_spec k i); [subst; exact Hij|apply orel_refl]. }
    split; [split; [congruence|]|].
    + intros n it' v E' L' Ev. apply live_upd in L' as (L' & _). destruct (N2 n it' E') as (it & En & F). apply (item_each_means depth look f it it' v F).
      eapply item_full_rel; [|eapply I; eauto]. auto.
    + eapply (rest_each depth f s s'); [exact Vs|exact Mb|exact Me| | |exact Rest]; auto.
  - destruct (nth_error vals j) as [vj|] eqn:Vj; [|apply nth_error_None in Vj; lia].
    destruct (N1 j _ Ej) as (itj & Ej' & Fj). pose proof (I j itj vj Ej' ltac:(apply live_upd; split; auto; lia) Vj) as Kj.
    apply (item_each_means depth _ f _ _ vj Fj) in Kj. simpl in Kj. destruct vj as [cj|]; [|contradiction].
    exists vars, (upd vals i (VOp cj)). set (look' := resolve vals imports vars) in *. set (look := resolve (upd vals i (VOp cj)) imports vars).
    assert (Hr : forall n r, ref_ok s n r -> look r = after look' f r).
    { intros n r Hr. unfold after, f, look, look'. destruct r as [k|k|k|k l]; simpl; auto.
      - destruct (Nat.eqb_spec k i) as [->|Hk]; simpl.
        + rewrite nth_upd_eq, Vj by lia. auto.
        + rewrite nth_upd_ne by auto. auto.
      - rewrite nth_upd_ne; auto. intros ->. destruct Hr as (_ & c & Q & _). congruence. }
    split; [split; [rewrite length_upd; congruence|]|].
    + intros n it v En Ln' Ev. destruct (Nat.eq_dec n i) as [->|Hn].
      * rewrite Ei in En. injection En as <-. rewrite nth_upd_eq in Ev by lia. injection Ev as <-. simpl. apply Give.
        { unfold look. simpl. rewrite nth_upd_ne, Vj by lia. auto. }
        revert Kj. apply node_closed; [|apply same_coll_refl]. apply orel_looks. intros r Hr0.
        rewrite <- (Hr j r); [apply orel_refl|]. apply (Ri j (IOp nj) r); auto.
      * rewrite nth_upd_ne in Ev by auto. destruct (N1 n it En) as (it' & En' & F).
        pose proof (I n it' v En' ltac:(apply live_upd; auto) Ev) as K. apply (item_each_means depth look' f it it' v F) in K.
        revert K. apply item_full_rel. intros r Hr0. rewrite (Hr n r); [apply orel_refl|]. apply (Ri n it r); auto.
    + assert (Hb : forall b, In b (sc_binds s) -> orel (look (bi_value b)) (after look' f (bi_value b))).
      { intros b Hb. rewrite (Hr (length (sc_items s))); [apply orel_refl|apply Rb; auto]. }
      assert (He : forall e, In e (sc_exports s) -> orel (look (ex_value e)) (after look' f (ex_value e))).
      { intros b He. rewrite (Hr (length (sc_items s))); [apply orel_refl|apply Re; auto]. }
      apply (rest_each depth f s s' vars look look' exports Vs Mb Me Hb He). exact Rest.
Qed.
End Redirect.

(** ** Fusing *)
Section Fuse.
Variables (s : Scope) (dead : list bool) (i j : nat) (inner : Ref) (ops iops : list LinearOp).
Hypothesis (Ok : live_ok s dead) (Ei : nth_error (sc_items s) i = Some (IOp (NLinear (RLocal j) ops)))
  (Ej : nth_error (sc_items s) j = Some (IOp (NLinear inner iops))) (Li : live dead i) (Lj : live dead j)
  (Only : (forall n it r, nth_error (sc_items s) n = Some it -> live dead n -> n <> i -> In r (item_refs it) -> target r <> Some j) /\
          (forall b, In b (sc_binds s) -> target (bi_value b) <> Some j) /\ (forall e, In e (sc_exports s) -> target (ex_value e) <> Some j)).
Let s' := with_items s (upd (sc_items s) i (IOp (NLinear inner (iops ++ ops)))).
Let dead' := upd dead j true.

Lemma fuse_order : j < i.
Proof. destruct Ok as (_ & R & _). specialize (R i _ (RLocal j) Ei Li ltac:(simpl; auto)). destruct R as ((H & _) & _). auto. Qed.
Lemma fuse_inner : ref_ok s j inner /\ target_live dead inner.
Proof. destruct Ok as (_ & R & _). apply (R j _ inner Ej Lj). simpl; auto. Qed.
Lemma fuse_inner_not : target inner <> Some j.
Proof. destruct fuse_inner as (H & _). destruct inner as [k|k|k|k l]; simpl in *; try discriminate; intros [= ->]; destruct H; lia. Qed.
Lemma fuse_kind m it : nth_error (sc_items s) m = Some it -> exists it', nth_error (sc_items s') m = Some it' /\ kind it it'.
Proof.
  intros E. unfold s', with_items; simpl. destruct (Nat.eq_dec m i) as [->|H].
  - rewrite Ei in E. injection E as <-. rewrite nth_upd_eq by (apply nth_error_Some; congruence). eexists. split; [reflexivity|]. simpl; auto.
  - rewrite nth_upd_ne by auto. exists it. split; auto. apply kind_refl.
Qed.
Lemma fuse_ok : live_ok s' dead'.
Proof.
  pose proof fuse_order as Hji. destruct fuse_inner as (Ki & Ti). pose proof fuse_inner_not as Nj. destruct Ok as (Len & Ri & Rb & Re). destruct Only as (Oi & Ob & Oe).
  assert (G : forall n r, target r <> Some j -> ref_ok s n r /\ target_live dead r -> ref_ok s' n r /\ target_live dead' r).
  { intros n r Hr (K & T). split.
    - apply (ref_ok_kind s); auto. intros m it _. apply fuse_kind.
    - intros m Em. apply live_upd. split; [apply T; auto|]. intros ->. auto. }
  unfold live_ok, refs_live. change (sc_items s') with (upd (sc_items s) i (IOp (NLinear inner (iops ++ ops)))).
  change (sc_binds s') with (sc_binds s). change (sc_exports s') with (sc_exports s).
  assert (Ld : length dead' = length dead) by apply length_upd. rewrite !length_upd, Ld. split; [auto|]. split; [|split].
  - intros n it r E L Hr. apply live_upd in L as (L & Hn). destruct (Nat.eq_dec n i) as [->|H].
    + rewrite nth_upd_eq in E by (apply nth_error_Some; congruence). injection E as <-. simpl in Hr. destruct Hr as [<-|[]].
      apply G; auto. split; auto. destruct inner as [k|k|k|k l]; simpl in *; auto; intuition lia.
    + rewrite nth_upd_ne in E by auto. apply G; [eapply Oi; eauto|eapply Ri; eauto].
  - intros b Hb. apply G; auto.
  - intros b Hb. apply G; auto.
Qed.

Variable depth : nat.
Hypothesis Compat : existsb delays iops = true -> existsb times ops = true -> False.
Lemma fuse_keeps imports exports : sol depth s dead imports exports <-> sol depth s' dead' imports exports.
Proof.
  pose proof fuse_order as Hji. destruct fuse_inner as (Ki & Ti). pose proof fuse_inner_not as Nj. destruct Ok as (Len & Ri & Rb & Re). destruct Only as (Oi & Ob & Oe).
  assert (Bi : i < length (sc_items s)) by (apply nth_error_Some; congruence). assert (Bj : j < length (sc_items s)) by lia.
  split; intros (vars & vals & (Lv & I) & Rest).
  - exists vars, vals. split; [|exact Rest]. unfold items_sol, s', with_items; simpl. rewrite length_upd. split; auto.
    intros n it v E L Ev. apply live_upd in L as (L & Hn). destruct (Nat.eq_dec n i) as [->|H].
    + rewrite nth_upd_eq in E by auto. injection E as <-. pose proof (I i _ v Ei Li Ev) as K. destruct v as [ci|]; [|contradiction].
      simpl in K. destruct K as (c & Ec & Hc). destruct (nth_error vals j) as [vj|] eqn:Vj; [|discriminate].
      pose proof (I j _ vj Ej Lj Vj) as K. destruct vj as [cj|]; [|contradiction]. injection Ec as <-. simpl in K. destruct K as (c' & Ec' & Hc').
      simpl. exists c'. split; auto. rewrite (linear_compose iops ops) by auto. eapply same_coll_trans; [exact Hc|].
      apply agree_same_coll, linear_agree; [apply down_always|]. apply agree_same_coll; auto.
    + rewrite nth_upd_ne in E by auto. eapply I; eauto.
  - unfold items_sol, s', with_items in Lv, I; simpl in Lv, I. rewrite length_upd in Lv.
    destruct (nth_error vals i) as [vi|] eqn:Vi; [|apply nth_error_None in Vi; lia].
    pose proof (I i _ vi ltac:(apply nth_upd_eq; auto) ltac:(apply live_upd; split; [auto|lia]) Vi) as K. destruct vi as [ci|]; [|contradiction]. simpl in K.
    destruct K as (c & Ec & Hc). exists vars, (upd vals j (VOp (linear_of iops depth c))).
    set (look' := resolve vals imports vars) in *. set (look := resolve (upd vals j (VOp (linear_of iops depth c))) imports vars).
    assert (Hr : forall r, target r <> Some j -> look r = look' r).
    { intros r Hr. unfold look, look'. destruct r as [k|k|k|k l]; simpl in *; auto; rewrite nth_upd_ne; auto; congruence. }
    split; [split; [rewrite length_upd; auto|]|].
    + intros n it v E L Ev. destruct (Nat.eq_dec n j) as [->|Hj].
      * rewrite Ej in E. injection E as <-. rewrite nth_upd_eq in Ev by lia. injection Ev as <-. simpl. exists c. rewrite Hr by auto. split; auto. apply same_coll_refl.
      * rewrite nth_upd_ne in Ev by auto. destruct (Nat.eq_dec n i) as [->|Hi].
        -- rewrite Ei in E. injection E as <-. rewrite Vi in Ev. injection Ev as <-. simpl. rewrite nth_upd_eq by lia.
           eexists. split; [reflexivity|]. rewrite <- linear_compose by auto. exact Hc.
        -- pose proof (I n it v ltac:(rewrite nth_upd_ne by auto; exact E) ltac:(apply live_upd; auto) Ev) as K. revert K. apply item_full_rel.
           intros r Hr0. rewrite (Hr r); [apply orel_refl|]. eapply Oi; eauto.
    + assert (Hb : forall b, In b (sc_binds s) -> look (bi_value b) = look' (bi_value b)) by (intros; apply Hr; auto).
      assert (He : forall e, In e (sc_exports s) -> look (ex_value e) = look' (ex_value e)) by (intros; apply Hr; auto).
      destruct Rest as (L & B & V & D & outs & O & X). unfold s', with_items in L, B, V, D, O; simpl in L, B, V, D, O.
      split; auto. split; auto. split; [|split; auto].
      * intros v c0 E. apply (bind_means_rel depth look' look); [|intros b Hi; rewrite (Hb b Hi); apply orel_refl|apply V; auto].
        apply D. intros Q. rewrite Q in L. destruct vars; [destruct v|]; discriminate.
      * exists outs. split; auto. rewrite <- O. apply mapO_ext. intros e Hi. apply He; auto.
Qed.
End Fuse.

(** ** Compacting *)
Fixpoint rank (dead : list bool) (n : nat) : nat :=
  match dead, n with
  | d :: dead, S n => (if d then 0 else 1) + rank dead n
  | _, _ => 0
  end.
Lemma rank_mono dead n m : n <= m -> rank dead n <= rank dead m.
Proof. revert n m. induction dead as [|d dead IH]; intros [|n] [|m] H; simpl; try lia. specialize (IH n m ltac:(lia)). lia. Qed.
Lemma rank_lt dead n m : live dead n -> n < m -> rank dead n < rank dead m.
Proof.
  unfold live. revert n m. induction dead as [|d dead IH]; intros [|n] [|m] E H; simpl in *; try discriminate; try lia.
  - injection E as ->. lia.
  - specialize (IH n m E ltac:(lia)). lia.
Qed.
Lemma rank_inj dead n m : live dead n -> live dead m -> rank dead n = rank dead m -> n = m.
Proof. intros Hn Hm E. destruct (Nat.lt_trichotomy n m) as [H|[H|H]]; auto; exfalso; apply (rank_lt dead) in H; auto; lia. Qed.
Lemma remap_nth dead n k : live dead n -> nth_error (remap_of dead k) n = Some (Some (k + rank dead n)).
Proof.
  unfold live. revert n k. induction dead as [|d dead IH]; intros [|n] k E; simpl in *; try discriminate.
  - injection E as ->. simpl. rewrite Nat.add_0_r. auto.
  - destruct d; simpl; rewrite IH by auto; auto. rewrite Nat.add_succ_r. auto.
Qed.
Lemma retain_spec {A} (xs : list A) dead : length xs = length dead -> exists ys, retain_live xs dead = Some ys /\
  length ys = rank dead (length dead) /\
  (forall n x, live dead n -> nth_error xs n = Some x -> nth_error ys (rank dead n) = Some x) /\
  (forall m y, nth_error ys m = Some y -> exists n, live dead n /\ rank dead n = m /\ nth_error xs n = Some y).
Proof.
  unfold live. revert dead. induction xs as [|x xs IH]; intros [|d dead] L; try discriminate.
  - exists []. simpl. split; auto. split; auto. split; [intros [|n] ? E; discriminate|intros [|m] ? E; discriminate].
  - destruct (IH dead) as (ys & E & Ln & H1 & H2); [simpl in L; lia|]. simpl. rewrite E. destruct d.
    + exists ys. split; auto. split; auto. split.
      * intros [|n] z En Ez; simpl in *; [discriminate|]. auto.
      * intros m y Ey. destruct (H2 m y Ey) as (n & A1 & A2 & A3). exists (S n). simpl. auto.
    + exists (x :: ys). split; auto. split; [simpl; auto|]. split.
      * intros [|n] z En Ez; simpl in *; auto.
      * intros [|m] y Ey; simpl in *.
        -- exists 0. simpl. auto.
        -- destruct (H2 m y Ey) as (n & A1 & A2 & A3). exists (S n). simpl. auto.
Qed.
Lemma rank_le dead n : rank dead n <= n.
Proof. revert n. induction dead as [|d dead IH]; intros [|n]; simpl; try lia. specialize (IH n). destruct d; lia. Qed.

Lemma nth_error_seq' n m k : nth_error (seq k m) n = if n <? m then Some (k + n) else None.
Proof.
  revert n k. induction m as [|m IH]; intros [|n] k; try reflexivity.
  - simpl. rewrite Nat.add_0_r; auto.
  - change (S n <? S m) with (n <? m). rewrite Nat.add_succ_r. simpl. apply IH.
Qed.
Section Compact.
Variables (s : Scope) (dead : list bool).
Hypothesis Ok : live_ok s dead.
Let f := remap_ref (remap_of dead 0).
Lemma remap_live r : target_live dead r -> f r = Some (match r with RLocal i => RLocal (rank dead i) | RChildExport i j => RChildExport (rank dead i) j | r => r end).
Proof.
  intros H. unfold f, remap_ref. destruct r as [i|i|i|i j]; auto; rewrite (remap_nth dead i 0) by (apply H; auto); auto.
Qed.
Lemma compact_some : exists s', compact s dead = Some s' /\ refs_ok s' /\ length (sc_items s') <= length (sc_items s) /\
  sc_name s' = sc_name s /\ sc_imports s' = sc_imports s /\ sc_vars s' = sc_vars s /\
  mapO (bind_each f) (sc_binds s) = Some (sc_binds s') /\ mapO (export_each f) (sc_exports s) = Some (sc_exports s') /\
  (forall n it, live dead n -> nth_error (sc_items s) n = Some it -> exists it', nth_error (sc_items s') (rank dead n) = Some it' /\ item_each f it = Some it') /\
  (forall m it', nth_error (sc_items s') m = Some it' -> exists n it, live dead n /\ rank dead n = m /\ nth_error (sc_items s) n = Some it /\ item_each f it = Some it') /\
  length (sc_items s') = rank dead (length dead).
Proof.
  destruct Ok as (Len & Ri & Rb & Re). unfold compact. destruct (retain_spec (sc_items s) dead (eq_sym Len)) as (its & -> & Ln & H1 & H2).
  destruct (for_each_some f (with_items s its)) as (s' & E); simpl.
  - intros it r Hi Hr. apply In_nth_error in Hi as (m & Em). destruct (H2 m it Em) as (n & A1 & A2 & A3).
    rewrite remap_live; [eauto|]. apply (Ri n it r); auto.
  - intros b Hb. rewrite remap_live; [eauto|apply Rb; auto].
  - intros b Hb. rewrite remap_live; [eauto|apply Re; auto].
  - exists s'. split; [exact E|]. apply for_each_inv in E as (Mi & Mb & Me & Nm & Im & Vs). simpl in *.
    destruct (mapO_nth _ _ _ Mi) as (L' & N1 & N2).
    assert (K1 : forall n it, live dead n -> nth_error (sc_items s) n = Some it -> exists it', nth_error (sc_items s') (rank dead n) = Some it' /\ item_each f it = Some it').
    { intros n it L E. apply N1. apply H1; auto. }
    assert (K2 : forall m it', nth_error (sc_items s') m = Some it' -> exists n it, live dead n /\ rank dead n = m /\ nth_error (sc_items s) n = Some it /\ item_each f it = Some it').
    { intros m it' E. destruct (N2 m it' E) as (it & E1 & F). destruct (H2 m it E1) as (n & A1 & A2 & A3). exists n, it. auto. }
    assert (G : forall n r r', ref_ok s n r /\ target_live dead r -> f r = Some r' -> ref_ok s' (rank dead n) r').
    { intros n r r' (K & T) F. rewrite remap_live in F by auto. injection F as <-. destruct r as [i|i|i|i j]; simpl in *; rewrite ?Im, ?Vs; auto.
      - destruct K as (Hi & node & Ei). destruct (K1 i _ (T i eq_refl) Ei) as (it' & E' & F'). apply item_each_kind in F'.
        destruct it' as [node'|]; [|contradiction]. split; [apply rank_lt; auto|eauto].
      - destruct K as (Hi & c & Ei & Hj). destruct (K1 i _ (T i eq_refl) Ei) as (it' & E' & F'). apply item_each_kind in F'.
        destruct it' as [|c']; [contradiction|]. simpl in F'. split; [apply rank_lt; auto|]. exists c'. split; auto. lia. }
    split; [split; [|split]|split; [|auto 15]].
    + intros m it' r' E Hr. destruct (K2 m it' E) as (n & it & A1 & <- & A3 & A4). destruct (item_each_refs _ _ _ _ A4 Hr) as (r & Hr0 & F).
      apply (G n r r'); auto. apply (Ri n it r); auto.
    + intros b' Hb. destruct (mapO_in _ _ _ _ Mb Hb) as (b & Hb0 & F). unfold bind_each in F. destruct (f (bi_value b)) as [r'|] eqn:Ef; [|discriminate].
      injection F as <-. simpl. rewrite L', Ln, Len. eapply G; [apply Rb; eauto|auto].
    + intros b' Hb. destruct (mapO_in _ _ _ _ Me Hb) as (b & Hb0 & F). unfold export_each in F. destruct (f (ex_value b)) as [r'|] eqn:Ef; [|discriminate].
      injection F as <-. simpl. rewrite L', Ln, Len. eapply G; [apply Re; eauto|auto].
    + rewrite L', Ln, Len. apply rank_le.
    + repeat (split; [solve [auto]|]). congruence.
Qed.
Lemma compact_keeps depth s' imports exports : compact s dead = Some s' ->
  sol depth s dead imports exports <-> sol depth s' (repeat false (length (sc_items s'))) imports exports.
Proof.
  intros E. destruct compact_some as (s0 & E0 & Rk & _ & _ & _ & Vs & Mb & Me & K1 & K2 & Ln'). rewrite E in E0. injection E0 as <-.
  destruct Ok as (Len & Ri & Rb & Re).
  assert (Core : forall vars vals vals', length vals = length (sc_items s) -> length vals' = length (sc_items s') ->
    (forall n, live dead n -> nth_error vals n = nth_error vals' (rank dead n)) ->
    (items_sol depth s dead (resolve vals imports vars) vals /\ rest_sol depth s vars (resolve vals imports vars) exports) <->
    (items_sol depth s' (repeat false (length (sc_items s'))) (resolve vals' imports vars) vals' /\ rest_sol depth s' vars (resolve vals' imports vars) exports)).
  { intros vars vals vals' L L' Hv. set (look := resolve vals imports vars). set (look' := resolve vals' imports vars).
    assert (Hr : forall r, target_live dead r -> look r = after look' f r).
    { intros r T. unfold after. rewrite remap_live by auto. unfold look, look'. destruct r as [i|i|i|i j]; simpl; auto; rewrite Hv by (apply T; auto); auto. }
    assert (Rest : rest_sol depth s vars look exports <-> rest_sol depth s' vars look' exports).
    { apply (rest_each depth f); auto.
      - intros b Hb. rewrite Hr; [apply orel_refl|apply Rb; auto].
      - intros b Hb. rewrite Hr; [apply orel_refl|apply Re; auto]. }
    rewrite Rest. unfold items_sol. split; intros ((_ & I) & R'); (split; [split; [auto|]|exact R']).
    - intros m it' v E' _ Ev. destruct (K2 m it' E') as (n & it & A1 & <- & A3 & A4). rewrite <- Hv in Ev by auto.
      apply (item_each_means depth look' f it it' v A4). eapply item_full_rel; [|eapply I; eauto]. intros r Hr0. fold look.
      rewrite Hr; [apply orel_refl|]. apply (Ri n it r); auto.
    - intros n it v En Ll Ev. destruct (K1 n it Ll En) as (it' & E' & F). rewrite Hv in Ev by auto.
      assert (K : item_full depth look' it' v).
      { eapply I; eauto. apply nth_error_repeat. apply nth_error_Some. congruence. }
      apply (item_each_means depth look' f it it' v F) in K. revert K. apply item_full_rel. intros r Hr0. fold look.
      rewrite (Hr r); [apply orel_refl|]. apply (Ri n it r); auto. }
  split; intros (vars & vals & H).
  - assert (Lv : length vals = length dead) by (destruct H as ((H & _) & _); congruence).
    destruct (retain_spec vals dead Lv) as (vals' & _ & Lv' & H1 & _). exists vars, vals'. apply (Core vars vals vals'); auto; try congruence.
    intros n L. apply live_bound in L as B. destruct (nth_error vals n) as [v|] eqn:Ev; [|apply nth_error_None in Ev; lia]. symmetry. apply H1; auto.
  - assert (Lv : length vals = length (sc_items s')) by (destruct H as ((H & _) & _); congruence).
    exists vars, (map (fun n => nth (rank dead n) vals (VOp [])) (seq 0 (length dead))). apply (Core vars _ vals); auto.
    + rewrite map_length, seq_length. auto.
    + intros n L. apply live_bound in L as B. rewrite nth_error_map, nth_error_seq'. destruct (Nat.ltb_spec n (length dead)); [|lia]. simpl.
      symmetry. apply nth_error_nth'. rewrite Lv, Ln'. apply rank_lt; auto.
Qed.
End Compact.

(** ** Delays *)
Lemma each_linear f it r' ops : item_each f it = Some (IOp (NLinear r' ops)) -> exists r, it = IOp (NLinear r ops) /\ f r = Some r'.
Proof.
  destruct it as [n|[nm is vs its bs es]]; simpl.
  - destruct (node_each f n) as [n'|] eqn:E; [|discriminate]. intros [= ->]. destruct n as [r o|rs|r|l r p|r red|r lab]; simpl in E.
    all: repeat match type of E with context [match ?e with _ => _ end] => destruct e eqn:?; try discriminate end; try discriminate.
    injection E as <- <-. eauto.
  - destruct (mapO (import_each f) is); discriminate.
Qed.
Lemma redirect_tame s s' i j : for_each_ref (fun r => Some (redirect_ref i j r)) s = Some s' ->
  (delayed_here s (RLocal j) -> delayed_here s (RLocal i)) -> tame s -> tame s'.
Proof.
  intros E Hd T. apply for_each_inv in E as (Mi & _). destruct (mapO_nth _ _ _ Mi) as (_ & _ & N2).
  assert (G : forall r', delayed_here s' r' -> forall r, redirect_ref i j r = r' -> delayed_here s r).
  { assert (H0 : forall k r, delayed_here s (RLocal k) -> redirect_ref i j r = RLocal k -> delayed_here s r).
    { intros k r Hk Er. destruct r as [m|m|m|m l]; simpl in Er; try discriminate. destruct (Nat.eqb_spec m i) as [->|Hm]; injection Er as <-; auto. }
    induction 1 as [k r0 ops Ek Hops|k r0 ops Ek _ IH]; intros r Er; apply (H0 k); auto;
      destruct (N2 k _ Ek) as (it & E1 & F); destruct (each_linear _ _ _ _ F) as (r1 & -> & [= F1]).
    - eapply DelayedNow; eauto.
    - eapply DelayedBefore; eauto. }
  intros n r' ops En Ht Hdl. destruct (N2 n _ En) as (it & E1 & F). destruct (each_linear _ _ _ _ F) as (r & -> & [= F1]).
  apply (T n r ops E1 Ht). eapply G; eauto.
Qed.
Lemma fuse_tame s i j inner ops iops : nth_error (sc_items s) i = Some (IOp (NLinear (RLocal j) ops)) ->
  nth_error (sc_items s) j = Some (IOp (NLinear inner iops)) -> tame s ->
  tame (with_items s (upd (sc_items s) i (IOp (NLinear inner (iops ++ ops))))).
Proof.
  intros Ei Ej T. set (s' := with_items s _).
  assert (Bi : i < length (sc_items s)) by (apply nth_error_Some; congruence).
  assert (Nth : forall k r o, nth_error (sc_items s') k = Some (IOp (NLinear r o)) ->
     (k = i /\ r = inner /\ o = iops ++ ops) \/ nth_error (sc_items s) k = Some (IOp (NLinear r o))).
  { intros k r o. unfold s', with_items; simpl. destruct (Nat.eq_dec k i) as [->|Hk]; [rewrite nth_upd_eq by auto; intros [= <- <-]; auto|rewrite nth_upd_ne by auto; auto]. }
  assert (G : forall r, delayed_here s' r -> delayed_here s r).
  { induction 1 as [k r0 o Ek Hops|k r0 o Ek _ IH]; destruct (Nth _ _ _ Ek) as [(-> & -> & ->)|E].
    - rewrite existsb_app in Hops. apply orb_true_iff in Hops as [Hops|Hops].
      + eapply DelayedBefore; [exact Ei|]. eapply DelayedNow; eauto.
      + eapply DelayedNow; eauto.
    - eapply DelayedNow; eauto.
    - eapply DelayedBefore; [exact Ei|]. eapply DelayedBefore; eauto.
    - eapply DelayedBefore; eauto. }
  intros n r o En Ht Hd. apply G in Hd. destruct (Nth _ _ _ En) as [(-> & -> & ->)|E].
  - rewrite existsb_app in Ht. apply orb_true_iff in Ht as [Ht|Ht].
    + eapply T; eauto.
    + apply (T i (RLocal j) ops Ei Ht). eapply DelayedBefore; eauto.
  - eapply T; eauto.
Qed.

(** ** Counting uses *)
Definition names (m : nat) (r : Ref) : bool := match target r with Some k => k =? m | None => false end.
Definition uses (m : nat) (rs : list Ref) : nat := length (filter (names m) rs).
Lemma names_iff m r : names m r = true <-> target r = Some m.
Proof. unfold names. destruct (target r) as [k|]; [|split; discriminate]. rewrite Nat.eqb_eq. split; congruence. Qed.
Lemma uses_app m a b : uses m (a ++ b) = uses m a + uses m b.
Proof. unfold uses. rewrite filter_app, app_length. auto. Qed.
Lemma uses_zero m rs r : uses m rs = 0 -> In r rs -> target r <> Some m.
Proof.
  unfold uses. intros H Hi E. apply names_iff in E. assert (Hf : In r (filter (names m) rs)) by (apply filter_In; auto).
  destruct (filter (names m) rs); [destruct Hf|discriminate].
Qed.
Definition contrib (m : nat) (p : Item * bool) : nat := if snd p then 0 else uses m (item_refs (fst p)).
Definition item_uses (m : nat) (items : list Item) (dead : list bool) : nat := list_sum (map (contrib m) (List.combine items dead)).
Definition total_uses (s : Scope) (dead : list bool) (m : nat) : nat :=
  item_uses m (sc_items s) dead + uses m (map bi_value (sc_binds s)) + uses m (map ex_value (sc_exports s)).

Lemma live_refs_spec items dead : length dead = length items -> exists rs, live_refs items dead = Some rs /\ (forall m, uses m rs = item_uses m items dead) /\
  (forall r, In r rs -> exists n it, nth_error items n = Some it /\ live dead n /\ In r (item_refs it)).
Proof.
  unfold live. revert dead. induction items as [|it items IH]; intros [|d dead] L; try discriminate.
  - exists []. split; auto. split; auto. intros r [].
  - destruct (IH dead) as (rs & E & U & I); [simpl in L; lia|]. simpl. rewrite E. eexists. split; [reflexivity|]. split.
    + intros m. unfold item_uses, contrib in *. simpl. rewrite <- U. destruct d; auto. apply uses_app.
    + intros r Hr. assert (H : (d = false /\ In r (item_refs it)) \/ In r rs).
      { destruct d; [auto|]. apply in_app_or in Hr as [H|H]; auto. }
      destruct H as [(-> & H)|H].
      * exists 0, it. auto.
      * destruct (I r H) as (n & it' & A & B & C). exists (S n), it'. auto.
Qed.
Lemma tally_spec (rs : list Ref) : forall counts, (forall r m, In r rs -> target r = Some m -> m < length counts) ->
  exists counts', fold_left (fun (counts : option (list nat)) r =>
    counts <- counts; match target r with Some i => c <- nth_error counts i; put counts i (S c) | None => Some counts end) rs (Some counts) = Some counts' /\
    length counts' = length counts /\ forall m c, nth_error counts m = Some c -> nth_error counts' m = Some (c + uses m rs).
Proof.
  induction rs as [|r rs IH]; intros counts H; simpl.
  - exists counts. split; auto. split; auto. intros m c E. rewrite E. unfold uses; simpl. f_equal. lia.
  - destruct (target r) as [i|] eqn:Et.
    + assert (Hi : i < length counts) by (eapply H; eauto; left; auto).
      destruct (nth_error counts i) as [c|] eqn:Ec; [|apply nth_error_None in Ec; lia]. rewrite put_some by auto.
      destruct (IH (upd counts i (S c))) as (cs & E & L & N). { intros r' m Hr Em. rewrite length_upd. eapply H; eauto. right; auto. }
      exists cs. split; auto. split; [rewrite length_upd in L; auto|]. intros m k Ek. unfold uses in *; simpl. unfold names at 1. rewrite Et.
      destruct (Nat.eqb_spec i m) as [->|Hm].
      * rewrite Ec in Ek. injection Ek as <-. rewrite (N m (S c)) by (apply nth_upd_eq; auto). simpl. f_equal. lia.
      * apply N. rewrite nth_upd_ne; auto.
    + destruct (IH counts) as (cs & E & L & N). { intros r' m Hr Em. eapply H; eauto. right; auto. }
      exists cs. split; auto. split; auto. intros m k Ek. unfold uses in *; simpl. unfold names at 1. rewrite Et. auto.
Qed.
Lemma ref_ok_bound s n r m : ref_ok s n r -> target r = Some m -> m < n.
Proof. destruct r; simpl; try discriminate; intros (H & _) [= <-]; auto. Qed.
Lemma use_counts_spec s dead : live_ok s dead -> exists counts, use_counts s dead = Some counts /\ length counts = length (sc_items s) /\
  forall m, m < length (sc_items s) -> nth_error counts m = Some (total_uses s dead m).
Proof.
  intros (Len & Ri & Rb & Re). unfold use_counts. destruct (live_refs_spec (sc_items s) dead Len) as (rs & -> & U & I).
  destruct (tally_spec (rs ++ map bi_value (sc_binds s) ++ map ex_value (sc_exports s)) (repeat 0 (length (sc_items s)))) as (cs & E & L & N).
  - intros r m Hr Em. rewrite repeat_length. apply in_app_or in Hr as [Hr|Hr]; [|apply in_app_or in Hr as [Hr|Hr]].
    + destruct (I r Hr) as (n & it & A & B & C). destruct (Ri n it r A B C) as (K & _). apply (ref_ok_bound _ _ _ m) in K; auto.
      assert (n < length (sc_items s)) by (apply nth_error_Some; congruence). lia.
    + apply in_map_iff in Hr as (b & <- & Hb). destruct (Rb b Hb) as (K & _). eapply ref_ok_bound; eauto.
    + apply in_map_iff in Hr as (b & <- & Hb). destruct (Re b Hb) as (K & _). eapply ref_ok_bound; eauto.
  - exists cs. split; [exact E|]. rewrite repeat_length in L. split; auto. intros m Hm.
    rewrite (N m 0) by (apply nth_error_repeat; auto). rewrite !uses_app, U. unfold total_uses. f_equal. lia.
Qed.

Lemma list_sum_upd l i v old : nth_error l i = Some old -> list_sum (upd l i v) + old = list_sum l + v.
Proof. revert i. induction l as [|x l IH]; intros [|i] E; simpl in *; try discriminate; [injection E as ->; lia|]. specialize (IH i E). lia. Qed.
Lemma list_sum_ge l i a : nth_error l i = Some a -> a <= list_sum l.
Proof. revert i. induction l as [|x l IH]; intros [|i] E; simpl in *; try discriminate; [injection E as ->; lia|]. specialize (IH i E). lia. Qed.
Lemma list_sum_two l i n a b : i <> n -> nth_error l i = Some a -> nth_error l n = Some b -> a + b <= list_sum l.
Proof.
  intros H Ei En. pose proof (list_sum_upd l i 0 a Ei) as U. assert (b <= list_sum (upd l i 0)); [|lia].
  apply (list_sum_ge _ n). rewrite nth_upd_ne; auto.
Qed.
Lemma contrib_nth m items dead n it d : nth_error items n = Some it -> nth_error dead n = Some d ->
  nth_error (map (contrib m) (List.combine items dead)) n = Some (contrib m (it, d)).
Proof.
  revert items dead. induction n as [|n IH]; intros [|x items] [|y dead]; simpl; try discriminate; [intros [= ->] [= ->]; auto|apply IH].
Qed.
Lemma contrib_upd_item m items dead n it d : nth_error dead n = Some d ->
  map (contrib m) (List.combine (upd items n it) dead) = upd (map (contrib m) (List.combine items dead)) n (contrib m (it, d)).
Proof.
  revert items dead. induction n as [|n IH]; intros [|x items] [|y dead]; simpl; try discriminate; auto; [intros [= ->]; auto|]. intros E. f_equal. apply IH; auto.
Qed.
Lemma contrib_upd_dead m items dead n it d : nth_error items n = Some it ->
  map (contrib m) (List.combine items (upd dead n d)) = upd (map (contrib m) (List.combine items dead)) n (contrib m (it, d)).
Proof.
  revert items dead. induction n as [|n IH]; intros [|x items] [|y dead]; simpl; try discriminate; auto; [intros [= ->]; auto|]. intros E. f_equal. apply IH; auto.
Qed.
Lemma fuse_uses s dead i j inner ops iops m : nth_error (sc_items s) i = Some (IOp (NLinear (RLocal j) ops)) ->
  nth_error (sc_items s) j = Some (IOp (NLinear inner iops)) -> live dead i -> live dead j -> i <> j -> m <> j ->
  total_uses (with_items s (upd (sc_items s) i (IOp (NLinear inner (iops ++ ops))))) (upd dead j true) m = total_uses s dead m.
Proof.
  intros Ei Ej Li Lj Hij Hm. unfold total_uses, with_items; simpl. do 2 f_equal. unfold item_uses.
  assert (Lij : nth_error (upd dead j true) i = Some false) by (rewrite nth_upd_ne; auto).
  rewrite (contrib_upd_item m _ _ _ _ false Lij), (contrib_upd_dead m _ _ _ _ true Ej).
  set (l := map (contrib m) (List.combine (sc_items s) dead)).
  pose proof (contrib_nth m _ _ _ _ _ Ei Li) as C1. pose proof (contrib_nth m _ _ _ _ _ Ej Lj) as C2. fold l in C1, C2.
  pose proof (list_sum_upd l j (contrib m (IOp (NLinear inner iops), true)) _ C2) as U2.
  assert (C3 : nth_error (upd l j (contrib m (IOp (NLinear inner iops), true))) i = Some (contrib m (IOp (NLinear (RLocal j) ops), false))) by (rewrite nth_upd_ne; auto).
  pose proof (list_sum_upd _ i (contrib m (IOp (NLinear inner (iops ++ ops)), false)) _ C3) as U1.
  assert (Z0 : contrib m (IOp (NLinear (RLocal j) ops), false) = 0).
  { unfold contrib, uses, names; simpl. destruct (Nat.eqb_spec j m); auto. congruence. }
  assert (Z1 : contrib m (IOp (NLinear inner iops), true) = 0) by reflexivity.
  assert (Z2 : contrib m (IOp (NLinear inner (iops ++ ops)), false) = contrib m (IOp (NLinear inner iops), false)) by reflexivity.
  lia.
Qed.
Lemma single_use s dead i j ops : nth_error (sc_items s) i = Some (IOp (NLinear (RLocal j) ops)) -> live dead i -> total_uses s dead j = 1 ->
  (forall n it r, nth_error (sc_items s) n = Some it -> live dead n -> n <> i -> In r (item_refs it) -> target r <> Some j) /\
  (forall b, In b (sc_binds s) -> target (bi_value b) <> Some j) /\ (forall e, In e (sc_exports s) -> target (ex_value e) <> Some j).
Proof.
  intros Ei Li H. unfold total_uses, item_uses in H. pose proof (contrib_nth j _ _ _ _ _ Ei Li) as C1.
  assert (E1 : contrib j (IOp (NLinear (RLocal j) ops), false) = 1) by (unfold contrib, uses, names; simpl; rewrite Nat.eqb_refl; auto).
  rewrite E1 in C1. pose proof (list_sum_ge _ _ _ C1) as G. split; [|split].
  - intros n it r En Ln Hn Hr. pose proof (contrib_nth j _ _ _ _ _ En Ln) as C2. pose proof (list_sum_two _ _ _ _ _ (not_eq_sym Hn) C1 C2) as G2.
    unfold contrib in G2; simpl in G2. apply (uses_zero j (item_refs it)); auto. unfold contrib in *; simpl in *. lia.
  - intros b Hb. apply (uses_zero j (map bi_value (sc_binds s))); [lia|apply in_map; auto].
  - intros b Hb. apply (uses_zero j (map ex_value (sc_exports s))); [lia|apply in_map; auto].
Qed.
