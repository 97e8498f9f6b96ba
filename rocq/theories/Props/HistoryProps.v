(** C43: replaying value histories and time histories. *)
From Coq Require Import Permutation Sorted.
From Verif Require Import Proofs.ReplayP Proofs.LatticeP Model.DifferenceM.

Definition time_of {V T R} (u : V * T * R) : T := snd (fst u).
(** the greatest lower bound of some times *)
Definition greatest_lower_bound {T} {TT : Time T} (m : T) (l : list T) : Prop :=
  forall m', tle m' m = true <-> Forall (fun t => tle m' t = true) l.

(** A history built from any edit list replays its edits in time order, whatever the interleaving of steps
    and advances: the next update and its time are those of the schedule, the meet is the greatest lower
    bound of all that remain, the buffer is what has been replayed, advanced as the caller asked; stepping
    fails only when nothing remains. *)
Theorem c43_value_history {V T R} {OV : Ord V} {TT : Time T} {DR : Diff R} (el : EditList V T R) us :
  el_map el = Some us ->
  exists h0 sched, vh_build el = Some h0 /\ Permutation sched us /\ StronglySorted (fun u1 u2 => le (time_of u1) (time_of u2)) sched /\
  forall ops,
    match replay sched [] ops with
    | None => vh_run h0 ops = None
    | Some (rest, buffer) =>
        exists h, vh_run h0 ops = Some h /\
          vh_edit h = Some (hd_error rest) /\ vh_time h = option_map time_of (hd_error rest) /\ vh_is_done h = is_nil rest /\
          (rest = [] -> vh_meet h = None) /\
          (rest <> [] -> exists m, vh_meet h = Some m /\ greatest_lower_bound m (map time_of rest)) /\
          same_weights (A:=V*T) (vh_buffer h) buffer
    end.
Proof.
  intros H. destruct (vh_build_ok el us H) as (h0 & sched & E & B & D & P & R0). exists h0, sched.
  split; [auto|]. split; [auto|]. split; [apply (rp_sorted _ _ R0)|]. intros ops.
  pose proof (vh_run_ok ops h0 sched [] R0) as G. rewrite B in G. specialize (G (same_weights_refl _)).
  destruct (replay sched [] ops) as [[rest buf]|]; auto. destruct G as (h & E1 & R1 & W). exists h.
  split; [auto|]. split; [apply replays_edit; auto|]. split; [apply replays_time; auto|]. split; [apply replays_done; auto|].
  pose proof (replays_meet _ _ R1) as M. destruct (vh_meet h) as [m|].
  - destruct M as [M1 M2]. split; [congruence|]. split; auto. intros _. exists m. split; auto. intros m'. rewrite M2, Forall_map. reflexivity.
  - split; auto. split; [congruence|auto].
Qed.
Print Assumptions c43_value_history.

(** The buffer accumulates to exactly what has been replayed, at every time beyond the caller's advances;
    when nothing remains, to the whole history. *)
Theorem c43_buffer_accumulates {V T R} {OV : Ord V} {TT : Time T} {DR : Diff R} (el : EditList V T R) us h0 :
  el_map el = Some us -> vh_build el = Some h0 ->
  forall ops h, vh_run h0 ops = Some h ->
    exists done rest, Permutation (done ++ rest) us /\ vh_edit h = Some (hd_error rest) /\
      (vh_is_done h = true -> rest = []) /\
      forall v t, Forall (fun m => tle m t = true) (advances ops) -> acc (vh_buffer h) v t = acc done v t.
Proof.
  intros H HB ops h HR. destruct (vh_build_ok el us H) as (h1 & sched & E & B & D & P & R0).
  rewrite HB in E; inversion E; subst h1. pose proof (vh_run_ok ops h0 sched [] R0) as G. rewrite B in G. specialize (G (same_weights_refl _)).
  destruct (replay sched [] ops) as [[rest buf]|] eqn:ER; [|congruence]. destruct G as (h' & E1 & R1 & W).
  rewrite HR in E1; inversion E1; subst h'. destruct (replay_buffer _ _ _ _ _ ER) as (d & Ed & A). exists d, rest.
  split; [rewrite <- Ed; auto|]. split; [apply replays_edit; auto|].
  split. { rewrite (replays_done _ _ R1). destruct rest; [auto|discriminate]. }
  intros v t HF. rewrite (acc_same_weights _ _ v t W), (A v t HF). auto.
Qed.
Print Assumptions c43_buffer_accumulates.

(** Loading a history from updates: the edits are the updates, each advanced to the given time. *)
Theorem c43_load {V T R} {OV : Ord V} {TT : Time T} {DR : Diff R} (edits : list (V * T * R)) (adv : option T) :
  exists h us, load_iter edits adv = Some h /\ vh_build (vh_edits h) = Some h /\ el_map (vh_edits h) = Some us /\
    same_weights (A:=V*T) us (match adv with None => edits | Some m => map (advance_to m) edits end).
Proof.
  destruct (load_iter_ok edits adv) as (h & us & E & M & B & W). exists h, us. split; [auto|]. split; [auto|]. split; [auto|].
  eapply same_weights_trans; [exact W|]. destruct adv as [m|]; [apply same_weights_refl|].
  simpl. erewrite map_ext; [rewrite map_id; apply same_weights_refl|]. intros [[v t] r]; reflexivity.
Qed.
Print Assumptions c43_load.

(** Histories of times alone: the buffer is a set of times. *)
Theorem c43_time_history {T} {TT : Time T} (times : list T) (adv : option T) :
  let sched := osort (match adv with None => times | Some m => map (fun t => join t m) times end) in
  StronglySorted le sched /\ Permutation sched (match adv with None => times | Some m => map (fun t => join t m) times end) /\
  forall ops, let h := th_run (th_load times adv) ops in
    let (rest, buffer) := th_spec sched [] ops in
    th_time h = hd_error rest /\ (rest = [] -> th_meet h = None) /\
    (rest <> [] -> exists m, th_meet h = Some m /\ greatest_lower_bound m rest) /\
    (forall t, In t (th_buffer h) <-> In t buffer).
Proof.
  cbv zeta. split; [apply osort_sorted|]. split; [apply osort_perm|]. intros ops.
  pose proof (th_run_ok ops _ _ [] (th_load_ok times adv)) as G. specialize (G (fun x => iff_refl _)).
  replace (osort (map (advance_opt adv) times)) with (osort (match adv with None => times | Some m => map (fun t => join t m) times end)) in G.
  2:{ f_equal. destruct adv; [reflexivity|]. simpl. symmetry. apply map_id. }
  destruct (th_spec _ [] ops) as [rest buf]. destruct G as [G1 G2]. cbn [fst snd] in *. split; [apply th_replays_time; auto|].
  pose proof (th_replays_meet _ _ G1) as M. destruct (th_meet _) as [m|].
  - destruct M as [M1 M2]. split; [congruence|]. split; [|auto]. intros _. exists m. split; auto.
  - split; auto. split; [congruence|auto].
Qed.
Print Assumptions c43_time_history.

(** Concrete: three edits of two values at incomparable product times; the meet of the last two is below both. *)
Definition c43_ex_edits : list (nat * (nat * nat) * Z) := [(7, (1, 0), 2%Z); (7, (0, 1), (-1)%Z); (9, (0, 0), 5%Z)].
Example c43_ex_load : option_map (fun h => (vh_time h, vh_meet h)) (load_iter c43_ex_edits None) = Some (Some (0, 0), Some (0, 0)).
Proof. reflexivity. Qed.
Example c43_ex_run :
  (h <- load_iter c43_ex_edits None; h <- vh_run h [Step; Step; AdvanceBuffer (1, 0)]; Some (vh_meet h, vh_buffer h))
  = Some (Some (1, 0), [((7, (1, 1)), (-1)%Z); ((9, (1, 0)), 5%Z)]).
Proof. reflexivity. Qed.
Example c43_ex_meet :
  (h <- load_iter c43_ex_edits None; h <- vh_run h [Step]; Some (vh_time h, vh_meet h)) = Some (Some (0, 1), Some (0, 0)).
Proof. reflexivity. Qed.
