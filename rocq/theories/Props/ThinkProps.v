(** C22: joining the histories of one key. *)
From Verif Require Import Proofs.ThinkP Proofs.LatticeP.

(** All products of updates of the two histories, at the joined times. *)
Definition products {V1 V2 T R1 R2 R3} {TT : Time T} {D1 : Diff R1} {D2 : Diff R2} {D3 : Diff R3} {MU : Multiply R1 R2 R3}
  (us1 : list (V1 * T * R1)) (us2 : list (V2 * T * R2)) : list ((V1 * V2) * T * R3) :=
  flat_map (fun '(v1, t1, r1) => map (fun '(v2, t2, r2) => ((v1, v2), join t1 t2, dmul r1 r2)) us2) us1.
(** what the callback of [think] is told, as updates *)
Definition multiplied {V1 V2 T R1 R2 R3} {D1 : Diff R1} {D2 : Diff R2} {D3 : Diff R3} {MU : Multiply R1 R2 R3}
  (calls : list (V1 * V2 * T * R1 * R2)) : list ((V1 * V2) * T * R3) :=
  map (fun '(v1, v2, t, r1, r2) => ((v1, v2), t, dmul r1 r2)) calls.

Section Mult.
Context {V1 V2 T R1 R2 R3} {OV1 : Ord V1} {OV2 : Ord V2} {TT : Time T} {D1 : Diff R1} {D2 : Diff R2} {D3 : Diff R3} {MU : Multiply R1 R2 R3}.
Definition mulf (v1 : V1) (v2 : V2) (t : T) (r1 : R1) (r2 : R2) : list ((V1 * V2 * T) * R3) := [(((v1, v2), t), dmul r1 r2)].
Lemma mulf_biadditive : biadditive mulf.
Proof.
  constructor; intros; unfold mulf; rewrite !weight_one.
  - rewrite dmul_0_l; destruct (eqb _ _); auto.
  - rewrite dmul_0_r; destruct (eqb _ _); auto.
  - rewrite dmul_plus_l. destruct (eqb _ _); auto. rewrite dplus_0_l; auto.
  - rewrite dmul_plus_r. destruct (eqb _ _); auto. rewrite dplus_0_l; auto.
Qed.
Lemma out_mulf calls : out mulf calls = multiplied calls.
Proof. unfold out, multiplied. induction calls as [|[[[[v1 v2] t] r1] r2] l IH]; simpl; auto. rewrite IH; auto. Qed.
Lemma multiplied_cross (us1 : list (V1*T*R1)) (us2 : list (V2*T*R2)) : multiplied (cross us1 us2) = products us1 us2.
Proof.
  unfold cross, products. induction us1 as [|[[v1 t1] r1] us1 IH]; auto. cbn [flat_map]. rewrite <- IH. unfold multiplied. rewrite map_app. f_equal.
  unfold emit1. rewrite map_map. apply map_ext. intros [[v2 t2] r2]. auto.
Qed.
End Mult.

(** The per-key join, small and large code path: exactly the products of all pairs of updates, as weights at
    each pair of values and each time. *)
Theorem c22_think_is_cross_product {V1 V2 T R1 R2 R3} {OV1 : Ord V1} {OV2 : Ord V2} {TT : Time T} {D1 : Diff R1} {D2 : Diff R2} {D3 : Diff R3}
  {MU : Multiply R1 R2 R3} (el1 : EditList V1 T R1) (el2 : EditList V2 T R2) us1 us2 :
  el_map el1 = Some us1 -> el_map el2 = Some us2 ->
  exists calls, think el1 el2 = Some calls /\ same_weights (A:=V1*V2*T) (multiplied calls) (products us1 us2).
Proof.
  intros M1 M2. destruct (think_ok mulf mulf_biadditive el1 el2 us1 us2 M1 M2) as (calls & E & W). exists calls. split; auto.
  intros x. specialize (W x). unfold w in W. rewrite !out_mulf, multiplied_cross in W. exact W.
Qed.
Print Assumptions c22_think_is_cross_product.

(** [bilinear_wave] over any two loaded histories. *)
Theorem c22_bilinear_wave_is_cross_product {V1 V2 T R1 R2 R3} {OV1 : Ord V1} {OV2 : Ord V2} {TT : Time T} {D1 : Diff R1} {D2 : Diff R2} {D3 : Diff R3}
  {MU : Multiply R1 R2 R3} (e1 : list (V1 * T * R1)) (e2 : list (V2 * T * R2)) adv1 adv2 :
  exists h1 h2 out, load_iter e1 adv1 = Some h1 /\ load_iter e2 adv2 = Some h2 /\ bilinear_wave h1 h2 = Some out /\
    same_weights (A:=V1*V2*T) out
      (products (match adv1 with None => e1 | Some m => map (advance_to m) e1 end) (match adv2 with None => e2 | Some m => map (advance_to m) e2 end)).
Proof.
  destruct (load_iter_ok e1 adv1) as (h1 & us1 & E1 & M1 & B1 & W1). destruct (load_iter_ok e2 adv2) as (h2 & us2 & E2 & M2 & B2 & W2).
  destruct (wave_built mulf mulf_biadditive _ _ _ _ M1 M2) as (h1' & h2' & calls & E1' & E2' & E & W).
  rewrite B1 in E1'; inversion E1'; subst h1'. rewrite B2 in E2'; inversion E2'; subst h2'.
  exists h1, h2, (multiplied calls). split; [auto|]. split; [auto|]. split; [unfold bilinear_wave; rewrite E; auto|].
  assert (A1 : forall V R (e : list (V * T * R)) adv, match adv with None => e | Some m => map (advance_to m) e end =
                 map (fun u => (fst (fst u), advance_opt adv (snd (fst u)), snd u)) e).
  { clear. intros V R e [m|]; auto. simpl. erewrite map_ext; [rewrite map_id; auto|]. intros [[v t] r]; auto. }
  rewrite !A1. intros x. specialize (W x). unfold w in W. rewrite !out_mulf, multiplied_cross in W. rewrite W. clear - W1 W2.
  (* both factors only matter through their weights *)
  assert (C1 : forall a a' (b : list (V2 * T * R2)), same_weights (A:=V1*T) a a' -> weight (A:=V1*V2*T) (products (R1:=R1) a b) x = weight (A:=V1*V2*T) (products a' b) x).
  { intros a a' b H. assert (G := flat_map_same_weights (A:=V1*T) (B:=V1*V2*T) (R:=R1) (S:=R3)
        (fun y r1 => map (fun '(v2, t2, r2) => ((fst y, v2), join (snd y) t2, dmul r1 r2)) b)).
    cbv beta in G. assert (E : forall l : list (V1*T*R1), products l b = flat_map (fun x0 : V1*T*R1 => map (fun '(v2, t2, r2) => ((fst (fst x0), v2), join (snd (fst x0)) t2, dmul (snd x0) r2)) b) l).
    { clear. unfold products. induction l as [|[[v1 t1] r1] l IH]; simpl; auto. rewrite <- IH. auto. }
    rewrite !E. apply G; auto.
    - clear. intros y z. induction b as [|[[v2 t2] r2] b IH]; auto. cbn [map]. rewrite weight_cons', IH. cbn [fst snd]. rewrite dmul_0_l. destruct (eqb _ _); apply dplus_0_l.
    - clear. intros y r1 r1' z. induction b as [|[[v2 t2] r2] b IH]; [symmetry; apply dplus_0_l|]. cbn [map]. rewrite !weight_cons', IH. cbn [fst snd]. rewrite dmul_plus_l.
      destruct (eqb _ _); [apply dplus_swap4|]. rewrite !dplus_0_l; auto. }
  assert (C2 : forall a (b b' : list (V2 * T * R2)), same_weights (A:=V2*T) b b' -> weight (A:=V1*V2*T) (products (R1:=R1) a b) x = weight (A:=V1*V2*T) (products a b') x).
  { intros a b b' H. unfold products. induction a as [|[[v1 t1] r1] a IH]; auto. cbn [flat_map]. rewrite !weight_app, IH. f_equal.
    assert (G := flat_map_same_weights (A:=V2*T) (B:=V1*V2*T) (R:=R2) (S:=R3) (fun y r2 => [((v1, fst y), join t1 (snd y), dmul r1 r2)])).
    cbv beta in G. assert (E : forall l : list (V2*T*R2), map (fun '(v2, t2, r2) => ((v1, v2), join t1 t2, dmul r1 r2)) l =
       flat_map (fun x0 : V2*T*R2 => [((v1, fst (fst x0)), join t1 (snd (fst x0)), dmul r1 (snd x0))]) l).
    { clear. induction l as [|[[v2 t2] r2] l IH]; simpl; auto. rewrite <- IH; auto. }
    rewrite !E. apply G; auto.
    - intros y z. rewrite weight_one, dmul_0_r. destruct (eqb _ _); auto.
    - intros y r r' z. rewrite !weight_one, dmul_plus_r. destruct (eqb _ _); auto. rewrite dplus_0_l; auto. }
  rewrite (C1 _ _ us2 W1). apply C2, W2.
Qed.
Print Assumptions c22_bilinear_wave_is_cross_product.

(** Hence, at every time, the product of the accumulated histories. *)
Theorem c22_think_accumulates {V1 V2 T R1 R2 R3} {OV1 : Ord V1} {OV2 : Ord V2} {TT : Time T} {D1 : Diff R1} {D2 : Diff R2} {D3 : Diff R3}
  {MU : Multiply R1 R2 R3} (el1 : EditList V1 T R1) (el2 : EditList V2 T R2) us1 us2 calls v1 v2 t :
  el_map el1 = Some us1 -> el_map el2 = Some us2 -> think el1 el2 = Some calls ->
  acc (multiplied calls) (v1, v2) t = dmul (acc us1 v1 t) (acc us2 v2 t).
Proof.
  intros M1 M2 E. destruct (c22_think_is_cross_product el1 el2 us1 us2 M1 M2) as (calls' & E' & W). rewrite E in E'; inversion E'; subst calls'.
  rewrite (acc_same_weights _ _ _ _ W). clear. unfold products. induction us1 as [|[[a ta] ra] us1 IH]; [symmetry; apply dmul_0_l|].
  cbn [flat_map]. rewrite acc_app, IH, acc_cons', dmul_plus_l. f_equal. clear IH. cbn [fst snd].
  induction us2 as [|[[b tb] rb] us2 IH]; [symmetry; apply dmul_0_r|]. cbn [map]. rewrite !acc_cons', IH, dmul_plus_r. f_equal. clear IH. cbn [fst snd].
  rewrite join_tle_b. destruct (eqb_spec (a, b) (v1, v2)) as [X|N].
  - inversion X; subst. rewrite !eqb_refl. simpl. destruct (tle ta t), (tle tb t); simpl; rewrite ?dmul_0_l, ?dmul_0_r; auto.
  - simpl. destruct (eqb_spec a v1); simpl; [|rewrite dmul_0_l; auto]. destruct (eqb_spec b v2); simpl; [congruence|rewrite dmul_0_r; auto].
Qed.
Print Assumptions c22_think_accumulates.

(** Concrete: two histories of twelve edits each take the large path. *)
Definition c22_ex_el : option (EditList nat (nat * nat) Z) :=
  load_iter_loop (map (fun i => (i mod 3, (i / 3, 5 - i / 3), Z.of_nat (S i))) (seq 0 12)) None None el_new.
Example c22_ex_large : option_map el_len c22_ex_el = Some 12.
Proof. reflexivity. Qed.
Example c22_ex_runs : option_map (fun l => length l) (el <- c22_ex_el; think el el) = Some 144.
Proof. vm_compute. reflexivity. Qed.
