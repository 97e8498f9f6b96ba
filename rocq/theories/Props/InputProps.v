(** C33: input sessions. *)
From Verif Require Import Base.Collections Spec.InputSpec Proofs.LatticeP Proofs.InputP.

Section C33.
Context {D T R : Type} {TT : Time T}.

(** A sequence of calls panics exactly if one of them goes back in time. *)
Theorem c33_panics_only_if_time_regresses : forall (cs : list (s_call D T R)), s_calls session_new cs = None <-> stated tmin cs = None.
Proof.
  intros cs. assert (HI : s_inv tmin [] (session_new (D:=D) (T:=T) (R:=R))) by (constructor; simpl; auto; [constructor|apply tle_refl]).
  pose proof (calls_ok cs _ _ _ HI) as H. cbn [session_new session_from s_time handle_new h_time] in H.
  destruct (stated tmin cs) as [[e us]|]; [destruct H as (s' & E & _); split; congruence|tauto].
Qed.
(** Otherwise what the dataflow has been told is legal, and it has been told, in order, what was stated,
    except for what is still buffered; the buffered updates are still legal to send. *)
Theorem c33_in_order_once : forall (cs : list (s_call D T R)) s, s_calls session_new cs = Some s ->
  exists us, stated tmin cs = Some (s_time s, us) /\ legal_told tmin (h_told (s_handle s)) (h_time (s_handle s)) /\
    delivered (h_told (s_handle s)) ++ s_buffer s = us /\ Forall (fun u => tle (h_time (s_handle s)) (snd (fst u)) = true) (s_buffer s).
Proof.
  intros cs s E. assert (HI : s_inv tmin [] (session_new (D:=D) (T:=T) (R:=R))) by (constructor; simpl; auto; [constructor|apply tle_refl]).
  pose proof (calls_ok cs _ _ _ HI) as H. cbn [session_new session_from s_time handle_new h_time] in H.
  destruct (stated tmin cs) as [[e us]|]; [|congruence]. destruct H as (s' & E' & HI' & <-). rewrite E in E'. inversion E'; subst s'.
  exists us. split; auto. destruct HI'. auto.
Qed.
(** After a flush nothing is buffered and the dataflow's time is the session's. *)
Theorem c33_flush : forall (cs : list (s_call D T R)) spare us e, stated tmin cs = Some (e, us) ->
  exists s, s_calls session_new (cs ++ [CFlush spare]) = Some s /\ s_buffer s = [] /\ delivered (h_told (s_handle s)) = us /\
    h_time (s_handle s) = e /\ s_time s = e.
Proof.
  intros cs spare us e E. assert (HI : s_inv tmin [] (session_new (D:=D) (T:=T) (R:=R))) by (constructor; simpl; auto; [constructor|apply tle_refl]).
  pose proof (calls_ok cs _ _ _ HI) as H. cbn [session_new session_from s_time handle_new h_time] in H. rewrite E in H. destruct H as (s & Es & HI' & Ht).
  destruct (flush_ok _ _ s spare HI') as (s' & Ef & HI2 & Hb & Hh & Ht2). exists s'. split.
  - clear - Es Ef. revert Es. generalize (session_new (D:=D) (T:=T) (R:=R)). induction cs as [|c cs IH]; intros s0 Es; cbn [app s_calls] in *.
    + inversion Es; subst. cbn [s_call_step]. rewrite Ef. auto.
    + destruct (s_call_step s0 c); [|discriminate]. auto.
  - split; auto. split; [|split; congruence]. destruct HI2 as [_ _ HA _ _ _]. rewrite Hb, app_nil_r in HA. exact HA.
Qed.
(** Dropping the session delivers everything and closes the input. *)
Theorem c33_drop : forall (cs : list (s_call D T R)) spare s, s_calls session_new cs = Some s ->
  exists l us, session_drop spare s = Some (l ++ [Closed]) /\ stated tmin cs = Some (s_time s, us) /\ delivered l = us /\
    legal_told tmin (l ++ [Closed]) (s_time s).
Proof.
  intros cs spare s E. destruct (c33_in_order_once cs s E) as (us & Est & _).
  assert (HI : s_inv tmin [] (session_new (D:=D) (T:=T) (R:=R))) by (constructor; simpl; auto; [constructor|apply tle_refl]).
  pose proof (calls_ok cs _ _ _ HI) as H. cbn [session_new session_from s_time handle_new h_time] in H. rewrite Est in H. destruct H as (s1 & Es & HI' & Ht).
  rewrite E in Es. inversion Es; subst s1. destruct (flush_ok _ _ s spare HI') as (s' & Ef & HI2 & Hb & Hh & Ht2).
  exists (h_told (s_handle s')), us. unfold session_drop. rewrite Ef. split; auto. split; auto.
  destruct HI2 as [HT HO HA _ _ _]. rewrite Hb, app_nil_r in HA. split; [exact HA|]. eapply legal_told_app; eauto. rewrite Hh. constructor.
Qed.
End C33.
Print Assumptions c33_panics_only_if_time_regresses. Print Assumptions c33_in_order_once. Print Assumptions c33_flush. Print Assumptions c33_drop.

(** Two thousand insertions overflow the buffer; then later updates, at several times. *)
Definition c33_cs : list (s_call nat nat Z) :=
  map (fun i => CUpdate 0 0 i 1%Z) (seq 0 1030) ++ [CUpdateAt 0 0 7 5 2%Z; CAdvanceTo 3; CUpdate 0 0 8 1%Z; CFlush 0; CUpdate 0 0 9 1%Z].
Example c33_run : option_map (fun s => (map (fun x => match x with Message t us => (t, length us) | Advanced t => (t, 0) | Closed => (0, 0) end) (h_told (s_handle s)), length (s_buffer s)))
  (s_calls session_new c33_cs) = Some ([(0, 1024); (0, 8); (3, 0)], 1) /\ s_calls (D:=nat) (R:=Z) session_new [CAdvanceTo 3; CUpdateAt 0 0 1 2 1%Z] = None.
Proof. vm_compute. auto. Qed.
