From Verif Require Export Spec.InputSpec.
Section InputP.
Context {D T R : Type} {TT : Time T}.
Notation update := (D * T * R)%type.
Notation session := (InputSession D T R).

Record s_inv (t0 : T) (us : list update) (s : session) : Prop := {
  in_told : legal_told t0 (h_told (s_handle s)) (h_time (s_handle s));
  in_open : ~ In Closed (h_told (s_handle s));
  in_all : delivered (h_told (s_handle s)) ++ s_buffer s = us;
  in_buffer : Forall (fun u => tle (h_time (s_handle s)) (snd (fst u)) = true) (s_buffer s);
  in_time : tle (h_time (s_handle s)) (s_time s) = true;
  in_cap : length (s_buffer s) <= s_capacity s
}.
Lemma delivered_app (a b : list (told D T R)) : delivered (a ++ b) = delivered a ++ delivered b.
Proof. apply flat_map_app. Qed.
Lemma legal_told_app (a b : list (told D T R)) now m e : legal_told now a m -> ~ In Closed a -> legal_told m b e -> legal_told now (a ++ b) e.
Proof.
  intros H. revert b e. induction H; intros b e' Hc Hb; simpl; auto.
  - constructor; auto. apply IHlegal_told; auto. intros Hi. apply Hc. right. auto.
  - constructor; auto. apply IHlegal_told; auto. intros Hi. apply Hc. right. auto.
  - destruct Hc. left. auto.
Qed.
Lemma send_ok t0 us s : s_inv t0 us s -> let h := send_batch (s_handle s) (s_buffer s) in
  legal_told t0 (h_told h) (h_time h) /\ ~ In Closed (h_told h) /\ delivered (h_told h) = us /\ h_time h = h_time (s_handle s).
Proof.
  intros [HT HO HA HB _ _]. unfold send_batch. destruct (s_buffer s) as [|u b] eqn:Eb.
  - rewrite app_nil_r in HA. auto.
  - cbn [h_told h_time]. split; [|split; [|split]]; auto.
    + eapply legal_told_app; eauto. constructor; [discriminate|auto|constructor].
    + intros Hi. apply in_app_or in Hi as [Hi|[Hi|[]]]; [auto|discriminate].
    + rewrite delivered_app. simpl. rewrite app_nil_r. auto.
Qed.
Lemma push_ok t0 us s spare more u : s_inv t0 us s -> tle (s_time s) (snd (fst u)) = true ->
  s_inv t0 (us ++ [u]) (push spare more u s) /\ s_time (push spare more u s) = s_time s.
Proof.
  intros HI Hu. pose proof (send_ok t0 us s HI) as HS. cbn zeta in HS. destruct HI as [HT HO HA HB HH HC].
  assert (Hhu : tle (h_time (s_handle s)) (snd (fst u)) = true) by (eapply tle_trans; eauto).
  unfold push. destruct (length (s_buffer s) =? s_capacity s) eqn:El.
  - destruct (s_buffer s) as [|x b] eqn:Eb.
    + split; [|auto]. constructor; cbn [s_handle s_buffer s_time s_capacity]; rewrite ?Eb; auto.
      * rewrite app_nil_r in HA. rewrite HA. auto.
      * simpl. auto.
      * simpl. lia.
    + destruct HS as (S1 & S2 & S3 & S4). split; [|auto]. constructor; cbn [s_handle s_buffer s_time s_capacity app].
      * auto.
      * auto.
      * rewrite S3. auto.
      * constructor; [|constructor]. rewrite S4. auto.
      * rewrite S4. auto.
      * simpl. lia.
  - split; [|auto]. constructor; cbn [s_handle s_buffer s_time s_capacity]; auto.
    + rewrite app_assoc, HA. auto.
    + apply Forall_app. split; auto.
    + rewrite app_length. apply Nat.eqb_neq in El. simpl. lia.
Qed.
Lemma flush_ok t0 us s spare : s_inv t0 us s ->
  exists s', session_flush spare s = Some s' /\ s_inv t0 us s' /\ s_buffer s' = [] /\ h_time (s_handle s') = s_time s /\ s_time s' = s_time s.
Proof.
  intros HI. pose proof (send_ok t0 us s HI) as (S1 & S2 & S3 & S4). destruct HI as [HT HO HA HB HH HC]. unfold session_flush.
  set (h := send_batch (s_handle s) (s_buffer s)) in *. destruct (tlt (h_time h) (s_time s)) eqn:El.
  - apply tlt_spec in El as El'. destruct El' as [Ele Hne]. unfold handle_advance. rewrite Ele. eexists. split; [reflexivity|].
    cbn [s_handle s_buffer s_time h_time]. split; [|auto]. constructor; cbn [s_handle s_buffer s_time s_capacity h_told h_time]; auto.
    + eapply legal_told_app; eauto. constructor; [auto|constructor].
    + intros Hi. apply in_app_or in Hi as [Hi|[Hi|[]]]; [auto|discriminate].
    + rewrite delivered_app. simpl. rewrite app_nil_r, S3, app_nil_r. auto.
    + apply tle_refl.
    + simpl; lia.
  - assert (Ee : h_time h = s_time s).
    { destruct (eqb_spec (h_time h) (s_time s)) as [|Hne]; auto. exfalso. rewrite <- S4 in HH.
      assert (tlt (h_time h) (s_time s) = true) by (apply tlt_spec; auto). congruence. }
    eexists. split; [reflexivity|]. cbn [s_handle s_buffer s_time h_time]. split; [|auto]. constructor; cbn [s_handle s_buffer s_time s_capacity]; auto.
    + rewrite S3, app_nil_r. auto.
    + rewrite S4. auto.
    + simpl; lia.
Qed.
Lemma calls_ok cs : forall t0 us s, s_inv t0 us s ->
  match stated (s_time s) cs with
  | Some (e, us') => exists s', s_calls s cs = Some s' /\ s_inv t0 (us ++ us') s' /\ s_time s' = e
  | None => s_calls s cs = None
  end.
Proof.
  induction cs as [|c cs IH]; intros t0 us s HI; cbn [stated s_calls].
  - exists s. rewrite app_nil_r. auto.
  - destruct c as [spare more d r|spare more d t r|spare|t]; cbn [s_call_step].
    + destruct (push_ok t0 us s spare more (d, s_time s, r) HI (tle_refl _)) as [HP HTm].
      specialize (IH t0 _ _ HP). unfold session_update. rewrite HTm in IH. destruct (stated (s_time s) cs) as [[e us']|]; auto.
      destruct IH as (s' & E & H1 & H2). exists s'. rewrite <- app_assoc in H1. auto.
    + unfold session_update_at. destruct (tle (s_time s) t) eqn:Et; auto.
      destruct (push_ok t0 us s spare more (d, t, r) HI Et) as [HP HTm].
      specialize (IH t0 _ _ HP). rewrite HTm in IH. destruct (stated (s_time s) cs) as [[e us']|]; auto.
      destruct IH as (s' & E & H1 & H2). exists s'. rewrite <- app_assoc in H1. auto.
    + destruct (flush_ok t0 us s spare HI) as (s' & E & HI' & _ & _ & HTm). rewrite E. specialize (IH t0 us s' HI'). rewrite HTm in IH. exact IH.
    + unfold session_advance_to. destruct (tle (s_time s) t) eqn:Et; [|rewrite andb_false_r; auto].
      pose proof (in_time _ _ _ HI) as HH. rewrite (tle_trans _ _ _ HH Et). cbn [andb].
      destruct HI as [HT HO HA HB _ HC]. apply (IH t0 us {| s_time := t; s_buffer := s_buffer s; s_capacity := s_capacity s; s_handle := s_handle s |}).
      constructor; cbn [s_handle s_buffer s_time s_capacity]; auto. eapply tle_trans; eauto.
Qed.
End InputP.
