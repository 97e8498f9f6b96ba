(** A window of the proxy reduce: its keys are set up, and their corrections emitted to the tiles. *)
From Coq Require Import Sorting.Sorted.
From Verif Require Import Proofs.RetireP.
From Verif Require Export Proofs.DiscoverResultP Proofs.ProxyRoundsP.
From Verif Require Import Base.Order.

Lemma Forall2_mono {A B} (P Q : A -> B -> Prop) : (forall a b, P a b -> Q a b) -> forall l m, Forall2 P l m -> Forall2 Q l m.
Proof. induction 2; constructor; auto. Qed.
Lemma Forall2_in_r {A B} (P : A -> B -> Prop) l m y : Forall2 P l m -> In y m -> exists x, In x l /\ P x y.
Proof. induction 1 as [|a b l m Hp HF IH]; [intros []|]. intros [<-|Hy]; [exists a; split; [left|]; auto|]. destruct (IH Hy) as (x & Hx & Px). exists x. split; [right|]; auto. Qed.
Lemma Forall2_in_l {A B} (P : A -> B -> Prop) l m x : Forall2 P l m -> In x l -> exists y, In y m /\ P x y.
Proof. induction 1 as [|a b l m Hp HF IH]; [intros []|]. intros [<-|Hy]; [exists b; split; [left|]; auto|]. destruct (IH Hy) as (y & Hx & Px). exists y. split; [right|]; auto. Qed.

(** ** Runs of keys *)
Section Runs.
Context {H X : Type} {OH : Ord H}.
Variable key_of : X -> H.
Definition with_key (k : H) (l : list X) : list X := filter (fun x => eqb (key_of x) k) l.
Definition by_keys (l : list X) : Prop := StronglySorted le (map key_of l).
Lemma by_keys_cons x l : by_keys (x :: l) -> by_keys l /\ forall y, In y l -> le (key_of x) (key_of y).
Proof. intros HS. unfold by_keys in *. cbn [map] in HS. inversion HS as [|? ? HS' HF]; subst. rewrite Forall_map, Forall_forall in HF. auto. Qed.
Lemma with_key_none k l : (forall x, In x l -> key_of x <> k) -> with_key k l = [].
Proof. intros HN. unfold with_key. induction l as [|x l IH]; auto. cbn [filter]. destruct (eqb_spec (key_of x) k) as [E|]; [destruct (HN x (or_introl eq_refl) E)|]. apply IH. intros y Hy. apply HN. right; auto. Qed.
Lemma take_key_run k : forall l, by_keys l -> (forall x, In x l -> le k (key_of x)) -> exists rest, take_key key_of k l = (with_key k l, rest) /\ by_keys rest /\ (forall k', k' <> k -> with_key k' rest = with_key k' l) /\ incl rest l.
Proof.
  induction l as [|x l IH]; intros HS HL; [exists []; cbn; auto using incl_refl|]. apply by_keys_cons in HS as HS'. destruct HS' as [HS' Hx]. cbn [take_key with_key filter].
  destruct (eqb_spec (key_of x) k) as [E|N].
  - destruct (IH HS') as (rest & E1 & E2 & E3 & E4); [intros; apply HL; right; auto|]. rewrite E1. exists rest. split; [auto|]. split; [auto|]. split; [|intros y Hy; right; auto].
    intros k' Hk'. rewrite (E3 k' Hk'). destruct (eqb_spec (key_of x) k'); [congruence|auto].
  - exists (x :: l). fold (with_key k l). rewrite (with_key_none k l); [split; [auto|]; split; [auto|]; split; [auto|apply incl_refl]|].
    intros y Hy E. apply N. apply le_antisym; [rewrite <- E; auto|apply HL; left; auto].
Qed.
Lemma key_run_ok k : forall l, by_keys l -> exists rest, key_run key_of k l = (with_key k l, rest) /\ by_keys rest /\ (forall k', lt k k' -> with_key k' rest = with_key k' l) /\ incl rest l.
Proof.
  unfold key_run. induction l as [|x l IH]; intros HS; [exists []; cbn; auto using incl_refl|]. apply by_keys_cons in HS as HS'. destruct HS' as [HS' Hx]. cbn [skip_below]. destruct (ltb (key_of x) k) eqn:E.
  - apply ltb_lt in E. destruct (IH HS') as (rest & E1 & E2 & E3 & E4). rewrite E1. exists rest. cbn [with_key filter]. destruct (eqb_spec (key_of x) k) as [Ek|]; [rewrite Ek in E; destruct (lt_irrefl _ E)|].
    split; [auto|]. split; [auto|]. split; [|intros y Hy; right; auto]. intros k' Hk'. rewrite (E3 k' Hk'). destruct (eqb_spec (key_of x) k') as [Ek|]; [rewrite Ek in E; destruct (lt_irrefl _ (lt_trans _ _ _ E Hk'))|auto].
  - apply ltb_ge in E. destruct (take_key_run k (x :: l) HS) as (rest & E1 & E2 & E3 & E4); [intros y [<-|Hy]; [auto|eapply le_trans; [exact E|apply Hx; auto]]|].
    rewrite E1. exists rest. split; [auto|]. split; [auto|]. split; [|auto]. intros k' Hk'. apply E3. intros ->. destruct (lt_irrefl _ Hk').
Qed.
End Runs.

Section Bridges.
Context {H I T R : Type} {OH : Ord H} {OI : Ord I} {TT : Time T} {DR : Diff R}.
Definition hash_of (u : H * I * T * R) : H := fst (fst (fst u)).
Lemma consolidated_by_keys (p : bridge H I T R) : consolidated (A:=H*I*T) p -> by_keys hash_of p.
Proof.
  intros [HS _]. unfold by_keys. induction p as [|u p IH]; [constructor|]. cbn [map] in *. apply strictly_sorted_cons_inv in HS. destruct HS as [HS HF]. constructor; [apply IH; auto|].
  rewrite Forall_map in *. eapply Forall_impl; [|exact HF]. intros u' Hu. destruct u as [[[h i] t] r], u' as [[[h' i'] t'] r']. cbn [fst] in *. unfold hash_of. cbn [fst].
  apply lt_pair in Hu. destruct Hu as [Hu|[Hu _]]; [apply lt_pair in Hu; destruct Hu as [Hu|[-> _]]; [apply lt_le; auto|apply le_refl]|]. inversion Hu; subst. apply le_refl.
Qed.
Lemma rehash_unhash h (p : bridge H I T R) : rehash h (unhash (with_key hash_of h p)) = with_key hash_of h p.
Proof.
  induction p as [|u p IH]; auto. cbn [with_key filter]. destruct (eqb_spec (hash_of u) h) as [E|]; auto. unfold rehash, unhash in *. cbn [map fst snd]. unfold with_key in IH. rewrite IH. f_equal.
  destruct u as [[[h' i] t] r]. unfold hash_of in E. cbn [fst snd] in *. subst. auto.
Qed.
Lemma rehash_key h (l : list (I * T * R)) : with_key hash_of h (rehash h l) = rehash h l.
Proof. unfold rehash, with_key. induction l as [|u l IH]; auto. cbn [map filter]. unfold hash_of at 1. cbn [fst]. rewrite eqb_refl, IH. auto. Qed.
Lemma unhash_rehash (h : H) (l : list (I * T * R)) : unhash (rehash h l) = l.
Proof. unfold unhash, rehash. rewrite map_map. cbn [fst snd]. rewrite <- (map_id l) at 2. apply map_ext. intros [[i t] r]; auto. Qed.
Lemma rehash_times (h : H) (l : list (I * T * R)) : map (fun u => snd (fst u)) (rehash h l) = map (fun u => snd (fst u)) l.
Proof. unfold rehash. rewrite map_map. auto. Qed.
End Bridges.

(** ** Pending times *)
Section Pending.
Context {H T : Type} {OH : Ord H} {TT : Time T}.
Lemma pending_at_in (pending : list (H * list T)) h p : strictly_sorted (map fst pending) -> (In p (pending_at pending h) <-> exists ps, In (h, ps) pending /\ In p ps).
Proof.
  unfold pending_at. induction pending as [|[h' ps'] pending IH]; intros HS; [split; [intros []|intros (ps & [] & _)]|]. cbn [map fst] in HS. apply strictly_sorted_cons_inv in HS. destruct HS as [HS HF]. cbn [find fst].
  destruct (eqb_spec h' h) as [->|N]; cbn [snd].
  - split; [intros Hp; exists ps'; split; [left|]; auto|]. intros (ps & [E|Hi] & Hp); [inversion E; subst; auto|]. rewrite Forall_map, Forall_forall in HF. destruct (lt_irrefl _ (HF _ Hi)).
  - rewrite (IH HS). split; intros (ps & Hi & Hp); exists ps; split; auto; [right; auto|]. destruct Hi as [E|Hi]; [inversion E; congruence|auto].
Qed.
Lemma pending_at_sorted (pending : list (H * list T)) h : Forall (fun kp => strictly_sorted (snd kp)) pending -> StronglySorted le (pending_at pending h).
Proof.
  intros HF. assert (G : strictly_sorted (pending_at pending h)). { unfold pending_at. induction HF as [|kp pending Hk HF IH]; [constructor|]. cbn [find]. destruct (eqb (fst kp) h); auto. }
  revert G. generalize (pending_at pending h) as l. induction l as [|x l IH]; intros HS; constructor; apply strictly_sorted_cons_inv in HS; destruct HS as [HS HL]; auto. eapply Forall_impl; [|exact HL]. intros y. apply lt_le.
Qed.
End Pending.

(** ** One key *)
Section KeyRight.
Context {K V1 V2 T R1 R2 H I : Type} {OK : Ord K} {OV1 : Ord V1} {OV2 : Ord V2} {OH : Ord H} {OI : Ord I} {TT : Time T} {D1 : Diff R1} {D2 : Diff R2} {A2 : Abelian R2}.
Notation meaning := (meaning (K:=K) (H:=H) (I:=I)).
Notation times l := (map (fun u => snd (fst u)) l).
Variable hash : K -> H. Variable F : K -> list (V1 * R1) -> V2 -> R2.
(** the output of a key is right at a time *)
Definition right_for (k : K) (t : T) (inp : list (K * V1 * T * R1)) (out : list (K * V2 * T * R2)) : Prop :=
  forall i, consolidated i -> (forall a, weight i a = acc inp (k, a) t) -> forall v, acc out (k, v) t = F k i v.
Lemma right_for_ext k t inp inp' out out' : (forall a, acc inp (k, a) t = acc inp' (k, a) t) -> (forall v, acc out (k, v) t = acc out' (k, v) t) -> right_for k t inp out -> right_for k t inp' out'.
Proof. intros E1 E2 HR i Ci Wi v. rewrite <- E2. apply HR; auto. intros a. rewrite E1. auto. Qed.

Lemma tnamed_other {V R} {OV : Ord V} {DR : Diff R} (mn : meaning V) h (l : list (I * T * R)) k v t : sound hash mn -> hash k <> h -> acc (tnamed mn h l) (k, v) t = dzero.
Proof. intros HS N. apply (shown_only hash); auto. intros u Hu. unfold rehash in Hu. apply in_map_iff in Hu. destruct Hu as (u' & <- & _). cbn [fst]. auto. Qed.
Lemma discovered_right upper (mn1 : meaning V1) (mn2 : meaning V2) h inp outp prod pend seeds moments pended :
  discover_times upper inp pend seeds (times outp) = Some (moments, pended) -> StronglySorted le pend -> sound hash mn2 ->
  all_shown mn2 (rehash h (outp ++ prod)) -> Forall (fun u => In (snd (fst u)) moments) prod ->
  (forall x, In x moments -> right_here hash F mn1 mn2 h inp (outp ++ prod) x) ->
  forall t, ac_less_equal upper t = false \/ linear_past t -> (exists sd, In sd (seeds ++ pend) /\ tle sd t = true) -> (forall y, In y pended -> tle y t = false) ->
  right_here hash F mn1 mn2 h inp (outp ++ prod) t.
Proof.
  intros Ed SP S2 Sh Hp Hm t Vt St Ht.
  assert (Sh' : all_shown mn2 (rehash h outp) /\ all_shown mn2 (rehash h prod)) by (unfold rehash in *; rewrite map_app in Sh; apply Forall_app in Sh; auto). destruct Sh' as [So Sp].
  assert (To : times (tnamed mn2 h outp) = times outp) by (unfold tnamed; rewrite shown_times, rehash_times; auto).
  assert (Tp : times (tnamed mn2 h prod) = times prod) by (unfold tnamed; rewrite shown_times, rehash_times; auto).
  destruct (discover_times_ok (V2:=K*V2) (R2:=R2) upper inp pend seeds (tnamed mn2 h outp) SP) as (m' & p' & E' & _ & _ & _ & _ & G). rewrite To, Ed in E'. injection E' as <- <-.
  set (F' := fun (t : T) (kv : K * V2) => if eqb (hash (fst kv)) h then FA (F (fst kv)) (of_key (fst kv) (tnamed mn1 h inp)) t (snd kv) else dzero).
  assert (Q : forall kv, F' t kv = dplus (acc (tnamed mn2 h outp) kv t) (acc (tnamed mn2 h prod) kv t)).
  { apply (G F'); auto.
    - intros t1 t2 _ _ E v. unfold F'. destruct (eqb (hash (fst v)) h); auto. apply FA_ext. intros a. rewrite !acc_of_key. apply tnamed_acc_ext; auto.
    - intros u Hu. apply (in_map (fun u => snd (fst u))) in Hu. rewrite Tp in Hu. apply in_map_iff in Hu. destruct Hu as (u' & <- & Hu). rewrite Forall_forall in Hp. apply Hp; auto.
    - intros x Hx [k v]. rewrite <- acc_app, <- tnamed_app. unfold F'. cbn [fst snd]. destruct (eqb_spec (hash k) h) as [Ek|N]; [|symmetry; apply tnamed_other; auto].
      unfold FA. symmetry. apply (Hm x Hx k Ek); [apply consolidate_consolidated|]. intros a. rewrite consolidate_weight, weight_values_at. apply acc_of_key. }
  intros k Hk i Ci Wi v. rewrite tnamed_app, acc_app, <- Q. unfold F'. cbn [fst snd]. rewrite Hk, eqb_refl. apply FA_ok; auto. intros a. rewrite acc_of_key. auto.
Qed.
Lemma right_here_for (mn1 : meaning V1) (mn2 : meaning V2) h inp outp x : right_here hash F mn1 mn2 h inp outp x <-> forall k, hash k = h -> right_for k x (tnamed mn1 h inp) (tnamed mn2 h outp).
Proof. unfold right_here, right_for. tauto. Qed.
End KeyRight.

(** ** Tiles *)
Section TileP.
Context {T : Type} {TT : Time T}.
Fixpoint chained (lo : list T) (ds : list (Description T)) (up : list T) : Prop :=
  match ds with [] => same_future lo up | d :: ds => same_future lo (d_lower d) /\ chained (d_upper d) ds up end.
Definition tile_fits (held : list T) (d : Description T) (h : T) : Prop :=
  d_since d = [tmin] /\ In h held /\ beyond (d_lower d) h /\ antichain (d_lower d) /\ antichain (d_upper d) /\ (forall t, beyond (d_upper d) t -> beyond (d_lower d) t) /\ ~ same_future (d_lower d) (d_upper d).
Lemma tile_loop_ok upper : antichain upper -> forall held lo n, antichain lo -> Forall (beyond lo) held -> (forall t, beyond upper t -> beyond lo t) -> (held = [] -> same_future lo upper) ->
  exists descs th tof, tile_loop upper held lo n = Some (descs, th, tof) /\ length tof = length held /\ chained lo descs upper /\ Forall2 (tile_fits held) descs th /\
    forall t idx, rposition held t = Some idx -> ~ beyond upper t -> exists tile d h, nth_error tof idx = Some (Some (n + tile)) /\ nth_error descs tile = Some d /\ nth_error th tile = Some h /\
      tle h t = true /\ beyond (d_lower d) t /\ ~ beyond (d_upper d) t.
Proof.
  intros AU. induction held as [|time held IH]; intros lo n HA HL HU H0.
  - exists [], [], []. cbn [tile_loop]. split; [auto|]. split; [auto|]. split; [apply H0; auto|]. split; [constructor|]. discriminate.
  - cbn [tile_loop]. set (ou := ac_extend upper held). assert (Aou : antichain ou) by (apply ac_extend_antichain; auto).
    assert (Bou : forall t, beyond ou t <-> beyond upper t \/ beyond held t) by (intros t; unfold ou; apply ac_extend_beyond).
    inversion HL as [|? ? Ht HL']; subst.
    assert (Lou : forall t, beyond ou t -> beyond lo t). { intros t Hb. apply Bou in Hb. destruct Hb as [Hb|(h & Hh & L)]; auto. rewrite Forall_forall in HL'. apply (beyond_mono _ h); auto. }
    assert (Hlast : held = [] -> same_future ou upper). { intros -> t. rewrite Bou. split; [intros [Hb|Hb]; auto; destruct (beyond_nil _ Hb)|auto]. }
    assert (Mono : forall d h, tile_fits held d h -> tile_fits (time :: held) d h) by (intros d h (F1 & F2 & F3); split; [auto|split; [right; auto|auto]]).
    assert (Rp : forall t idx, rposition (time :: held) t = Some idx -> (exists i, rposition held t = Some i /\ idx = S i) \/ (idx = 0 /\ tle time t = true /\ ~ beyond held t)).
    { intros t idx E. cbn [rposition] in E. destruct (rposition held t) as [i|] eqn:Ei; [injection E as <-; eauto|]. destruct (tle time t) eqn:L; [|discriminate]. injection E as <-. right. split; [auto|]. split; [auto|].
      intros B. destruct (rposition_some held t B) as (i & h & E' & _). congruence. }
    destruct (ac_eqb ou lo) eqn:Eq; cbn [negb].
    + apply ac_eqb_spec in Eq; auto. destruct (IH lo n HA) as (descs & th & tof & E & I1 & I2 & I3 & I4); auto. { intros En t. rewrite <- (Eq t). apply (Hlast En t). }
      rewrite E. exists descs, th, (None :: tof). split; [auto|]. split; [cbn; auto|]. split; [auto|]. split; [eapply Forall2_mono; [|exact I3]; exact Mono|].
      intros t idx Ei Nt. destruct (Rp t idx Ei) as [(i & Ei' & ->)|(-> & L & Nh)]; [apply (I4 t i); auto|]. exfalso.
      assert (Hb : beyond ou t) by (apply Eq; apply (beyond_mono _ time); auto). apply Bou in Hb. tauto.
    + assert (Nlo : lo <> []) by (intros ->; destruct (beyond_nil _ Ht)).
      assert (Ed : desc_new lo ou [tmin] = Some {| d_lower := lo; d_upper := ou; d_since := [tmin] |}) by (unfold desc_new; destruct lo; [congruence|auto]). rewrite Ed.
      destruct (IH ou (S n) Aou) as (descs & th & tof & E & I1 & I2 & I3 & I4).
      { apply Forall_forall. intros h Hh. apply Bou. right. apply beyond_in; auto. }
      { intros t Hb. apply Bou; auto. }
      { exact Hlast. }
      rewrite E. set (d := {| d_lower := lo; d_upper := ou; d_since := [tmin] |}). exists (d :: descs), (time :: th), (Some n :: tof). split; [auto|]. split; [cbn; auto|].
      split; [cbn [chained d d_lower d_upper]; split; [intros t; tauto|auto]|]. split.
      { constructor; [|eapply Forall2_mono; [|exact I3]; exact Mono]. unfold tile_fits, d. cbn [d_lower d_upper d_since]. split; [auto|]. split; [left; auto|]. split; [auto|]. split; [auto|]. split; [auto|]. split; [auto|].
        intros Hs. assert (ac_eqb ou lo = true); [|congruence]. apply ac_eqb_spec; auto. intros t. symmetry. apply Hs. }
      intros t idx Ei Nt. destruct (Rp t idx Ei) as [(i & Ei' & ->)|(-> & L & Nh)].
      * destruct (I4 t i Ei' Nt) as (tile & d' & h & J1 & J2 & J3 & J4). exists (S tile), d', h. cbn [nth_error]. rewrite J1. split; [do 2 f_equal; lia|auto].
      * exists 0, d, time. cbn [nth_error]. split; [do 2 f_equal; lia|]. split; [auto|]. split; [auto|]. split; [auto|]. cbn [d d_lower d_upper]. split; [apply (beyond_mono _ time); auto|]. intros Hb. apply Bou in Hb. tauto.
Qed.
End TileP.

(** ** The keys of a window *)
Section StandUp.
Context {T R1 R2 H I : Type} {OH : Ord H} {OI : Ord I} {TT : Time T} {D1 : Diff R1} {D2 : Diff R2}.
Notation times l := (map (fun u => snd (fst u)) l).
Notation state := (KeyState T R1 R2 H I).
Variable upper : list T. Variable pending : list (H * list T).
Hypothesis pending_sorted : Forall (fun kp => strictly_sorted (snd kp)) pending.
Definition disc (p_in : bridge H I T R1) (p_out : bridge H I T R2) (seeds : list (H * T)) (h : H) : option (list T * list T) :=
  discover_times upper (unhash (with_key hash_of h p_in)) (pending_at pending h) (map snd (with_key fst h seeds)) (times (with_key hash_of h p_out)).
Definition ghosts (p_in : bridge H I T R1) (p_out : bridge H I T R2) (m : H * (list T * list T)) : list kghost :=
  if is_nil (fst (snd m)) then [] else
  [{| kg_key := fst m; kg_in := unhash (with_key hash_of (fst m) p_in); kg_out := unhash (with_key hash_of (fst m) p_out); kg_done := []; kg_todo := fst (snd m); kg_prod := [] |}].
Definition later (m : H * (list T * list T)) : list (H * list T) := if is_nil (snd (snd m)) then [] else [(fst m, snd (snd m))].

Lemma disc_runs {A2 : Abelian R2} p_in p_out seeds h : exists moments pended, disc p_in p_out seeds h = Some (moments, pended) /\
  let seeded t := exists sd, In sd (map snd (with_key fst h seeds) ++ pending_at pending h) /\ tle sd t = true in
  strictly_sorted moments /\ Forall (fun x => ac_less_equal upper x = false /\ seeded x) moments /\ strictly_sorted pended /\ Forall (fun y => ac_less_equal upper y = true /\ seeded y) pended.
Proof.
  destruct (discover_times_ok (V2:=I) (R2:=R2) upper (unhash (with_key hash_of h p_in)) (pending_at pending h) (map snd (with_key fst h seeds)) (unhash (with_key hash_of h p_out)) (pending_at_sorted pending h pending_sorted))
    as (moments & pended & E & Q1 & Q2 & Q3 & Q4 & _).
  exists moments, pended. split; [|auto]. rewrite <- E. unfold disc. f_equal. unfold unhash. rewrite map_map. auto.
Qed.

Lemma stand_up_ok {A2 : Abelian R2} : forall keys p_in p_out seeds, strictly_sorted keys -> by_keys hash_of p_in -> by_keys hash_of p_out -> by_keys fst seeds ->
  exists states np seeds' ms, stand_up upper pending keys p_in p_out seeds = Some (states, np, seeds') /\
    by_keys fst seeds' /\ (forall h, Forall (fun k => lt k h) keys -> with_key fst h seeds' = with_key fst h seeds) /\
    map fst ms = keys /\ Forall (fun m => disc p_in p_out seeds (fst m) = Some (snd m)) ms /\
    Forall2 (fun g (st : state) => ks_key st = kg_key g /\ key_ok (kg_in g) (kg_out g) (kg_prod g) (kg_todo g) st) (flat_map (ghosts p_in p_out) ms) states /\
    np = flat_map later ms.
Proof.
  induction keys as [|key keys IH]; intros p_in p_out seeds HK Hi Ho Hs.
  - exists [], [], seeds, []. cbn [stand_up map flat_map]. repeat split; auto.
  - apply strictly_sorted_cons_inv in HK. destruct HK as [HK HL]. cbn [stand_up].
    destruct (key_run_ok hash_of key p_in Hi) as (ri & Ei & Si & Ki & _). destruct (key_run_ok hash_of key p_out Ho) as (ro & Eo & So & Ko & _). destruct (key_run_ok fst key seeds Hs) as (rs & Es & Ss & Ks & _).
    change (fun u : H * I * T * R1 => fst (fst (fst u))) with (hash_of (H:=H) (I:=I) (T:=T) (R:=R1)). change (fun u : H * I * T * R2 => fst (fst (fst u))) with (hash_of (H:=H) (I:=I) (T:=T) (R:=R2)).
    rewrite Ei, Eo, Es. destruct (disc_runs p_in p_out seeds key) as (moments & pended & Ed & _). unfold disc in Ed. rewrite Ed.
    destruct (IH ri ro rs HK Si So Ss) as (states & np & seeds' & ms & E & Q1 & Q2 & Q3 & Q4 & Q5 & Q6).
    assert (Hm : forall m, In m ms -> lt key (fst m)). { intros m Hm. rewrite Forall_forall in HL. apply HL. rewrite <- Q3. apply in_map. auto. }
    set (m := (key, (moments, pended))).
    assert (Eg : flat_map (ghosts ri ro) ms = flat_map (ghosts p_in p_out) ms).
    { clear -Hm Ki Ko. induction ms as [|m ms IH]; auto. cbn [flat_map]. rewrite IH by (intros; apply Hm; right; auto). f_equal. unfold ghosts. rewrite (Ki (fst m)), (Ko (fst m)) by (apply Hm; left; auto). auto. }
    assert (Q4' : Forall (fun m => disc p_in p_out seeds (fst m) = Some (snd m)) ms).
    { rewrite Forall_forall in *. intros m' Hm'. rewrite <- (Q4 m' Hm'). unfold disc. rewrite (Ki (fst m')), (Ko (fst m')), (Ks (fst m')) by (apply Hm; auto). auto. }
    rewrite Eg in Q5.
    assert (Q2' : forall h, Forall (fun k => lt k h) (key :: keys) -> with_key fst h seeds' = with_key fst h seeds).
    { intros h Hh. apply Forall_cons_iff in Hh. destruct Hh as [Hh Hh']. rewrite (Q2 h Hh'). apply Ks; auto. }
    destruct (is_nil moments) eqn:En.
    + rewrite E. exists states, (flat_map later (m :: ms)), seeds', (m :: ms). split; [cbn [app flat_map]; rewrite Q6; reflexivity|]. split; [auto|]. split; [auto|]. split; [cbn [map]; rewrite Q3; auto|].
      split; [constructor; auto|]. split; [|auto]. cbn [flat_map]. unfold ghosts at 1. cbn [m fst snd]. rewrite En. exact Q5.
    + destruct (replayed_load (unhash (with_key hash_of key p_in)) moments) as (hi & Ehi & Rhi). destruct (replayed_load (unhash (with_key hash_of key p_out)) moments) as (ho & Eho & Rho).
      rewrite Ehi, Eho, E. eexists _, (flat_map later (m :: ms)), seeds', (m :: ms). split; [cbn [flat_map]; rewrite Q6; reflexivity|]. split; [auto|]. split; [auto|]. split; [cbn [map]; rewrite Q3; auto|].
      split; [constructor; auto|]. split; [|auto]. cbn [flat_map]. unfold ghosts at 1. cbn [m fst snd]. rewrite En. cbn [app]. constructor; [|exact Q5]. cbn [ks_key kg_key kg_in kg_out kg_prod kg_todo]. split; [auto|].
      constructor; cbn [ks_moments ks_meets ks_in ks_out ks_produced]; auto.
Qed.
End StandUp.
