(** Cloned scopes: what [clone_rec] makes. *)
From Verif Require Export Proofs.CloneRecP.
From Verif Require Import Base.Collections Base.Arrays Base.Order Spec.PointStampSpec.
Local Open Scope nat_scope.

Definition at_path (path : list nat) (a : list nat * Site) : Addr := {| ad_path := path ++ fst a; ad_site := snd a |}.
Definition ident (k : nat) : list Ref := map RImport (seq 0 k).
Definition empty (name : string) (is : list Import) : Scope := MkScope name is [] [] [] [].
Lemma ident_length k : length (ident k) = k. Proof. unfold ident. rewrite map_length, seq_length. auto. Qed.

(** ** A clone in a scope of its own *)
Lemma empty_refs name is : everywhere refs_ok (empty name is).
Proof.
  constructor; [|intros c []]. split; [|split]; simpl; try tauto. intros [|n]; discriminate.
Qed.
Lemma empty_runs depth name is ims : runs depth (empty name is) ims [] [].
Proof.
  split; auto. split; [apply vals_ok_nil; auto|]. split; [split; constructor|]. split; [intros [|v]; discriminate|]. simpl. congruence.
Qed.
Lemma ident_refs name is r : In r (ident (length is)) -> ref_ok (empty name is) 0 r.
Proof. intros H. apply in_map_iff in H as (k & <- & Hk). apply in_seq in Hk. simpl. lia. Qed.
Lemma ident_means depth name is ims ims' : length ims = length is ->
  scope_means depth (reading (empty name is) (ident (length is))) ims ims' <-> Forall2 same_coll ims ims'.
Proof.
  intros L. assert (E : mapO (resolve [] ims []) (ident (length is)) = Some ims).
  { unfold ident. rewrite mapO_map, <- L. apply mapO_seq. auto. }
  rewrite reading_runs. split.
  - intros (vars & vals & (Lv & [Lx _] & _) & outs & Eo & F). simpl in Lv, Lx. destruct vars; [|discriminate]. destruct vals; [|discriminate]. congruence.
  - intros F. exists [], []. split; [apply empty_runs|]. eauto.
Qed.
Section Own.
Variables (orig : Scope) (name : string) (is : list Import) (n : list Item) (rs : list Ref) (bs' : list Bind) (es' : list Export).
Local Notation im := (ident (length is)).
Local Notation sp := (spliced orig (empty name is) n bs' es').
Hypothesis (Ro : refs_ok orig) (Lim : length is = length (sc_imports orig)) (C : copy 0 0 im (sc_items orig) n rs).
Hypothesis (Eb : mapO (bind_shift 0 (sref 0 0 im)) (sc_binds orig) = Some bs') (Ee : mapO (export_each (sref 0 0 im)) (sc_exports orig) = Some es').
Lemma own_means depth ims exs hosts : length ims = length (sc_imports orig) -> length exs = length (sc_exports orig) ->
  scope_means depth (reading sp (map ex_value es' ++ var_refs orig (empty name is) ++ rs)) ims (exs ++ hosts) <->
  scope_means depth orig ims exs /\ Forall2 (fun a h => site_means depth orig ims (fst a) (snd a) h) (sites orig) hosts.
Proof.
  intros Li Le. assert (Lim' : length im = length (sc_imports orig)) by (rewrite ident_length; auto).
  assert (Rim : forall r, In r im -> ref_ok (empty name is) (length (sc_items (empty name is))) r) by (apply ident_refs).
  pose proof (splice_means orig (empty name is) im n rs bs' es' Ro (everywhere_here _ _ (empty_refs name is)) Rim Lim' (Forall_nil _) C Eb Ee [] ltac:(intros r []) depth ims [] exs hosts
    ltac:(simpl; congruence) eq_refl Le) as H. simpl app in H. rewrite H. clear H. rewrite <- Lim in Li. split.
  - intros (i' & M & Mo & S). apply (ident_means depth name is ims i' Li), Forall2_same_sym in M. split; [eapply scope_closed; [exact M|apply Forall2_same_refl|exact Mo]|].
    clear -M S. induction S; constructor; auto. eapply site_closed; [exact M|apply same_coll_refl|auto].
  - intros (Mo & S). exists ims. split; auto. apply (ident_means depth name is ims ims Li), Forall2_same_refl.
Qed.
Lemma own_hosts : hosts orig (with_lifts sp (var_refs orig (empty name is) ++ rs)).
Proof.
  intros depth ims X Li. assert (Lim' : length im = length (sc_imports orig)) by (rewrite ident_length; auto).
  assert (Rim : forall r, In r im -> ref_ok (empty name is) (length (sc_items (empty name is))) r) by (apply ident_refs).
  pose proof (everywhere_here _ _ (empty_refs name is)) as Ru.
  rewrite lift_means.
  2:{ eapply spliced_refs; eauto. }
  2:{ intros r Hr. eapply visible_refs; eauto. }
  pose proof (mapO_length' _ _ _ Ee) as Les. split.
  - intros (exs & gs & hs & -> & Le & M & F). simpl in Le, M. apply own_means in M as (Mo & S); auto; [|congruence].
    exists exs, hs. split; auto. split; auto. clear -F S. revert hs F. induction S as [|a g ss gs Hg _ IH]; intros hs F; inversion F as [|? h ? hs' Hh Fr]; subst; constructor; auto.
    exists g. auto.
  - intros (exs & hs & -> & Mo & S). assert (G : exists gs, Forall2 (fun a h => site_means depth orig ims (fst a) (snd a) h) (sites orig) gs /\ Forall2 (fun g h => same_coll h (linear_of [LLiftIter] depth g)) gs hs).
    { clear -S. induction S as [|a h ss hs (g & Hg & Sg) _ (gs & A & B)]; [exists []; auto|]. exists (g :: gs). auto. }
    destruct G as (gs & A & B). exists exs, gs, hs. pose proof (means_length _ _ _ _ Mo) as Le. split; auto. split; [simpl; congruence|]. split; auto. simpl. apply own_means; auto.
Qed.
End Own.

(** ** The tables *)
Definition tabs (b : nat) (d : list Item) (locals : list (option Ref)) (subs : list (option nat)) : Prop :=
  length locals = length d /\ length subs = length d /\ forall i it, nth_error d i = Some it ->
    nth_error locals i = Some (match it with IOp _ => Some (RLocal (b + i)) | ISub _ => None end) /\
    nth_error subs i = Some (match it with IOp _ => None | ISub _ => Some (b + i) end).
Lemma tabs_snoc b d locals subs it : tabs b d locals subs ->
  tabs b (d ++ [it]) (locals ++ [match it with IOp _ => Some (RLocal (b + length d)) | ISub _ => None end]) (subs ++ [match it with IOp _ => None | ISub _ => Some (b + length d) end]).
Proof.
  intros (L1 & L2 & T). split; [rewrite !app_length; simpl; lia|]. split; [rewrite !app_length; simpl; lia|]. intros i it' E. destruct (lt_dec i (length d)) as [Hi|Hi].
  - rewrite nth_error_app1 in E by auto. rewrite !nth_error_app1 by lia. auto.
  - rewrite nth_error_app2 in E by lia. destruct (i - length d) as [|k] eqn:Ek; [|destruct k; discriminate]. injection E as <-.
    rewrite !nth_error_app2 by lia. replace (i - length locals) with 0 by lia. replace (i - length subs) with 0 by lia. replace i with (length d) by lia. auto.
Qed.
Lemma map_ref_known b vb im d locals subs r : tabs b d locals subs -> known (length im) d r -> map_ref locals subs im vb r = sref b vb im r.
Proof.
  intros (L1 & L2 & T). destruct r as [i|i|i|i j]; simpl; auto.
  - intros (nd & E). destruct (T _ _ E) as (-> & _). auto.
  - intros (c & E & _). destruct (T _ _ E) as (_ & ->). auto.
Qed.
Lemma sref_some b vb im d r : known (length im) d r -> exists r', sref b vb im r = Some r'.
Proof. destruct r as [i|i|i|i j]; simpl; eauto. intros H. destruct (nth_error im i) eqn:E; eauto. apply nth_error_None in E. lia. Qed.
Lemma node_each_ext f g nd : (forall r, In r (node_refs nd) -> f r = g r) -> node_each f nd = node_each g nd.
Proof.
  destruct nd as [r ops|xs|r|l r p|r red|r lab]; simpl; intros H; try (rewrite (H _ (or_introl eq_refl)); auto).
  - rewrite (mapO_ext f g); auto.
  - rewrite (H r) by auto. auto.
Qed.
Lemma clone_imports_ext f g is : Forall (fun im => exists r, im_from im = SParent r) is -> (forall r, In r (import_refs is) -> f r = g r) ->
  mapO (clone_import f) is = mapO (import_each g) is.
Proof.
  unfold import_refs. induction 1 as [|im is (r & E) _ IH]; auto. simpl. rewrite E. intros H. rewrite IH by (intros; apply H; apply in_app_iff; auto).
  unfold clone_import, import_each. rewrite E, (H r) by (left; auto). auto.
Qed.

(** ** The loop *)
Definition items_loop (rec : Scope -> Scope -> list Ref -> list nat -> option (Scope * list (Addr * Ref))) (import_map : list Ref) (path : list nat) (var_base : nat) :=
  fix go (its : list Item) (locals : list (option Ref)) (subs : list (option nat)) (out : Scope) (visible : list (Addr * Ref)) {struct its} :=
         match its with
         | [] => Some (locals, subs, out, visible)
         | IOp node :: its =>
             let m := map_ref locals subs import_map var_base in
             node' <- node_each m node;
             let out_idx := length (sc_items out) in
             vis <- match node with NArrange input => m input | _ => Some (RLocal out_idx) end;
             go its (locals ++ [Some (RLocal out_idx)]) (subs ++ [None]) (push_item out (IOp node'))
               (visible ++ [({| ad_path := path; ad_site := SiteOp (length locals) |}, vis)])
         | ISub child :: its =>
             let m := map_ref locals subs import_map var_base in
             cloned_imports <- mapO (clone_import m) (sc_imports child);
             let ident := map RImport (seq 0 (length (sc_imports child))) in
             ' inner <- rec child (MkScope (sc_name child) cloned_imports [] [] [] []) ident (path ++ [length locals]);
             let sub_idx := length (sc_items out) in
             let (child_out, vis) := lift_sites sub_idx (snd inner) (fst inner) in
             go its (locals ++ [None]) (subs ++ [Some sub_idx]) (push_item out (ISub child_out)) (visible ++ vis)
         end.
Lemma clone_rec_eq orig out im path : clone_rec orig out im path =
  (let var_base := length (sc_vars out) in
   let visible := map (fun vi => ({| ad_path := path; ad_site := SiteVar vi |}, RVar (var_base + vi))) (seq 0 (length (sc_vars orig))) in
   let out := MkScope (sc_name out) (sc_imports out) (sc_vars out ++ sc_vars orig) (sc_items out) (sc_binds out) (sc_exports out) in
   ' cloned <- items_loop clone_rec im path var_base (sc_items orig) [] [] out visible;
   let '(locals, subs, out, visible) := cloned in
   let m := map_ref locals subs im var_base in
   binds <- mapO (fun b => v <- m (bi_value b); Some {| bi_var := var_base + bi_var b; bi_value := v |}) (sc_binds orig);
   exports <- mapO (fun e => v <- m (ex_value e); Some {| ex_name := ex_name e; ex_value := v |}) (sc_exports orig);
   Some (MkScope (sc_name out) (sc_imports out) (sc_vars out) (sc_items out) (sc_binds out ++ binds) (sc_exports out ++ exports), visible)).
Proof. destruct orig; reflexivity. Qed.

Definition with_more (s : Scope) (its : list Item) : Scope := MkScope (sc_name s) (sc_imports s) (sc_vars s) (sc_items s ++ its) (sc_binds s) (sc_exports s).
Definition clones (orig : Scope) : Prop := forall out im path, length im = length (sc_imports orig) ->
  exists n rs bs' es' vis, let f := sref (length (sc_items out)) (length (sc_vars out)) im in
    clone_rec orig out im path = Some (spliced orig out n bs' es', vis) /\
    copy (length (sc_items out)) (length (sc_vars out)) im (sc_items orig) n rs /\
    mapO (bind_shift (length (sc_vars out)) f) (sc_binds orig) = Some bs' /\ mapO (export_each f) (sc_exports orig) = Some es' /\
    map fst vis = map (at_path path) (sites orig) /\ map snd vis = var_refs orig out ++ rs.

Lemma host_child child is' path' : everywhere refs_ok child -> clones child -> length is' = length (sc_imports child) ->
  exists c0 vis, clone_rec child (MkScope (sc_name child) is' [] [] [] []) (map RImport (seq 0 (length (sc_imports child)))) path' = Some (c0, vis) /\
    map fst vis = map (at_path path') (sites child) /\ length (sc_exports c0) = length (sc_exports child) /\
    let c' := with_lifts c0 (map snd vis) in sc_imports c' = is' /\ hosts child c' /\ length (sc_exports c') = length (sc_exports child) + length (sites child) /\ everywhere refs_ok c'.
Proof.
  intros R Cl L. destruct (Cl (empty (sc_name child) is') (ident (length (sc_imports child))) path' (ident_length _)) as (n & rs & bs' & es' & vis & E & C & Eb & Ee & V1 & V2).
  change (MkScope (sc_name child) is' [] [] [] []) with (empty (sc_name child) is'). change (map RImport (seq 0 (length (sc_imports child)))) with (ident (length (sc_imports child))).
  exists (spliced child (empty (sc_name child) is') n bs' es'), vis. split; auto. split; auto. simpl in C, Eb, Ee. rewrite <- L in C, Eb, Ee.
  pose proof (mapO_length' _ _ _ Ee) as Les. split; [simpl; auto|]. cbv zeta. rewrite V2. split; auto. split; [|split].
  - pose proof (everywhere_here _ _ R). eapply own_hosts; eauto.
  - simpl. unfold host_exports. rewrite app_length, map_length, seq_length. apply (f_equal (@length _)) in V1, V2. rewrite !map_length in *. rewrite <- V2. lia.
  - assert (Rim : forall r, In r (ident (length is')) -> ref_ok (empty (sc_name child) is') (length (sc_items (empty (sc_name child) is'))) r) by (apply ident_refs).
    assert (Lim' : length (ident (length is')) = length (sc_imports child)) by (rewrite ident_length; auto).
    pose proof (everywhere_here _ _ R) as Ro. pose proof (empty_refs (sc_name child) is') as Ru.
    apply lift_refs.
    + pose proof (everywhere_here _ _ Ru). eapply spliced_everywhere; eauto.
    + intros r Hr. eapply visible_refs; eauto.
Qed.

Lemma ref_known' s (im : list Ref) n its more r : sc_items s = its ++ more -> n = length its -> length im = length (sc_imports s) -> ref_ok s n r -> known (length im) its r.
Proof.
  intros E -> L. destruct r as [i|i|i|i j]; simpl; auto; [| lia|].
  - intros (H & nd & Q). exists nd. rewrite E, nth_error_app1 in Q by auto. auto.
  - intros (H & c & Q & Hj). exists c. rewrite E, nth_error_app1 in Q by auto. auto.
Qed.
Lemma loop_copies orig im path out0 : everywhere refs_ok orig -> everywhere nested_imports orig -> length im = length (sc_imports orig) ->
  (forall c, In (ISub c) (sc_items orig) -> clones c) -> let b := length (sc_items out0) in
  forall its vb d n rs locals subs vis, sc_items orig = d ++ its -> copy b vb im d n rs -> tabs b d locals subs ->
  exists n' rs' locals' subs' vis', items_loop clone_rec im path vb its locals subs (with_more out0 n) vis = Some (locals', subs', with_more out0 (n ++ n'), vis ++ vis') /\
    copy b vb im (sc_items orig) (n ++ n') (rs ++ rs') /\ tabs b (sc_items orig) locals' subs' /\
    map fst vis' = map (at_path path) (items_sites its (length d)) /\ map snd vis' = rs'.
Proof.
  intros R N Lim Cl b. pose proof (everywhere_here _ _ R) as (R1 & _). induction its as [|it its IH]; intros vb d n rs locals subs vis Es C T.
  - rewrite app_nil_r in Es. exists [], [], locals, subs, []. rewrite !app_nil_r, Es. simpl. auto.
  - pose proof (copy_length _ _ _ _ _ _ C) as Ln. pose proof T as (Ll & Ls & _). assert (Eit : nth_error (sc_items orig) (length d) = Some it) by (rewrite Es, nth_error_app2, Nat.sub_diag by lia; auto).
    assert (K : forall r, In r (item_refs it) -> known (length im) d r). { intros r Hr. exact (ref_known' orig im (length d) d (it :: its) r Es eq_refl Lim (R1 _ _ _ Eit Hr)). }
    assert (Oi : length (sc_items (with_more out0 n)) = b + length d) by (simpl; rewrite app_length; unfold b; lia).
    assert (Push : forall x, push_item (with_more out0 n) x = with_more out0 (n ++ [x])) by (intros; unfold push_item, with_more; simpl; rewrite app_assoc; auto).
    destruct it as [nd|child]; cbn [items_loop].
    + rewrite (node_each_ext _ (sref b vb im) nd) by (intros; eapply map_ref_known; eauto).
      destruct (node_each_some (sref b vb im) nd) as (nd' & End); [intros; eapply sref_some; eauto|]. rewrite End, Oi.
      assert (Vr : exists r, match nd with NArrange input => map_ref locals subs im vb input | _ => Some (RLocal (b + length d)) end = Some r /\
        match nd with NArrange x => sref b vb im x = Some r | _ => r = RLocal (b + length d) end).
      { destruct nd; eauto. destruct (sref_some b vb im d input (K _ (or_introl eq_refl))) as (r & Er). exists r. rewrite (map_ref_known b vb im d) by (auto; apply K; left; auto). auto. }
      destruct Vr as (r & -> & Hr). rewrite Push.
      destruct (IH vb (d ++ [IOp nd]) (n ++ [IOp nd']) (rs ++ [r]) (locals ++ [Some (RLocal (b + length d))]) (subs ++ [None]) (vis ++ [({| ad_path := path; ad_site := SiteOp (length locals) |}, r)])) as (n' & rs' & l' & s' & v' & E & C' & T' & V1 & V2).
      * rewrite <- app_assoc. auto.
      * eapply CopyOp; eauto.
      * apply (tabs_snoc b d locals subs (IOp nd)); auto.
      * exists (IOp nd' :: n'), (r :: rs'), l', s', (({| ad_path := path; ad_site := SiteOp (length locals) |}, r) :: v'). rewrite <- !app_assoc in *. simpl app in *. split; auto. split; auto. split; auto.
        rewrite app_length in V1. simpl in V1. rewrite Nat.add_1_r in V1. simpl. rewrite V1, V2, Ll. unfold at_path at 2. simpl. rewrite app_nil_r. auto.
    + pose proof (nth_error_In _ _ Eit) as Hin. pose proof (everywhere_here _ _ N child Hin) as Fp.
      rewrite (clone_imports_ext _ (sref b vb im)); [|auto|intros; eapply map_ref_known; eauto].
      destruct (imports_each_some (sref b vb im) (sc_imports child)) as (is' & Eis); [intros; eapply sref_some; eauto|]. rewrite Eis.
      pose proof (mapO_length' _ _ _ Eis) as Lis. destruct (host_child child is' (path ++ [length locals]) (everywhere_in _ _ _ R Hin) (Cl child Hin) Lis) as (c0 & cv & Ec & Ev & Le & Ei & Hh & Lx & Rx).
      rewrite Ec, Oi. cbn [fst snd]. destruct (lift_sites_spec (b + length d) cv c0) as (A & B & D). destruct (lift_sites (b + length d) cv c0) as [c' lv]. simpl in A, B, D. rewrite <- A in Ei, Hh, Lx, Rx.
      rewrite Push. assert (Lcv : length cv = length (sites child)) by (apply (f_equal (@length _)) in Ev; rewrite !map_length in Ev; auto).
      destruct (IH vb (d ++ [ISub child]) (n ++ [ISub c']) (rs ++ host_refs (b + length d) child) (locals ++ [None]) (subs ++ [Some (b + length d)]) (vis ++ lv)) as (n' & rs' & l' & s' & v' & E & C' & T' & V1 & V2).
      * rewrite <- app_assoc. auto.
      * apply CopySub; auto; [exact (everywhere_in _ _ _ R Hin)|exact (everywhere_in _ _ _ N Hin)|rewrite Ei; auto].
      * apply (tabs_snoc b d locals subs (ISub child)); auto.
      * exists (ISub c' :: n'), (host_refs (b + length d) child ++ rs'), l', s', (lv ++ v'). rewrite <- !app_assoc in *. simpl app in *. split; auto. split; auto. split; auto.
        rewrite app_length in V1. simpl in V1. rewrite Nat.add_1_r in V1. simpl. rewrite !map_app, V1, V2. split; [|rewrite D, Le, Lcv; auto].
        f_equal. rewrite B, Ev, map_map, Ll. apply map_ext. intros [p x]. unfold at_path. simpl. rewrite <- app_assoc. auto.
Qed.

Theorem clone_all s : everywhere refs_ok s -> everywhere nested_imports s -> clones s.
Proof.
  induction s as [s IH] using scope_ind'. intros R N out im path L.
  set (out1 := MkScope (sc_name out) (sc_imports out) (sc_vars out ++ sc_vars s) (sc_items out) (sc_binds out) (sc_exports out)).
  set (vis0 := map (fun vi => ({| ad_path := path; ad_site := SiteVar vi |}, RVar (length (sc_vars out) + vi))) (seq 0 (length (sc_vars s)))).
  destruct (loop_copies s im path out1 R N L) with (its := sc_items s) (vb := length (sc_vars out)) (d := @nil Item) (n := @nil Item) (rs := @nil Ref) (locals := @nil (option Ref)) (subs := @nil (option nat)) (vis := vis0)
    as (n & rs & l' & s' & vis & E & C & T & V1 & V2).
  { intros c Hc. apply IH; auto; eapply everywhere_in; eauto. } { auto. } { constructor. } { split; auto. split; auto. intros [|i]; discriminate. }
  simpl app in C, E. replace (with_more out1 []) with out1 in E by (unfold with_more, out1; simpl; rewrite app_nil_r; auto). simpl in C, T.
  set (f := sref (length (sc_items out)) (length (sc_vars out)) im).
  pose proof (everywhere_here _ _ R) as (R1 & R2 & R3).
  assert (K : forall r, ref_ok s (length (sc_items s)) r -> known (length im) (sc_items s) r). { intros r. apply (ref_known' s im _ (sc_items s) []); auto. rewrite app_nil_r; auto. }
  destruct (mapO_some (bind_shift (length (sc_vars out)) f) (sc_binds s)) as (bs' & Eb).
  { intros b Hb. destruct (sref_some (length (sc_items out)) (length (sc_vars out)) im (sc_items s) (bi_value b) (K _ (R2 b Hb))) as (r & Er). unfold bind_shift, f. rewrite Er. eauto. }
  destruct (mapO_some (export_each f) (sc_exports s)) as (es' & Ee).
  { intros e He. destruct (sref_some (length (sc_items out)) (length (sc_vars out)) im (sc_items s) (ex_value e) (K _ (R3 e He))) as (r & Er). unfold export_each, f. rewrite Er. eauto. }
  exists n, rs, bs', es', (vis0 ++ vis). cbv zeta. split; [|split; [exact C|split; [exact Eb|split; [exact Ee|]]]].
  - rewrite clone_rec_eq. cbv zeta. fold vis0 out1. rewrite E. cbn [fst snd].
    rewrite (mapO_ext _ (bind_shift (length (sc_vars out)) f)).
    2:{ intros b Hb. unfold bind_shift. rewrite (map_ref_known (length (sc_items out)) _ im (sc_items s)); auto. }
    rewrite Eb, (mapO_ext _ (export_each f)).
    2:{ intros e He. unfold export_each. rewrite (map_ref_known (length (sc_items out)) _ im (sc_items s)); auto. }
    rewrite Ee. unfold with_more, spliced, out1. simpl. auto.
  - rewrite !map_app, V1, V2. unfold vis0. rewrite !map_map, sites_eq, map_app, map_map. simpl. split; auto. f_equal. apply map_ext. intros v. unfold at_path. simpl. rewrite app_nil_r. auto.
Qed.
