(** Derivatives of any order by nested AFloats: the operations. *)
From Coq Require Import Reals Lra List Arith ZArith Bool Lia.
From Verif Require Import Base Float Operation Tape AContext Methods Function Spec Param TapeFacts
  Instances FunctionFacts ReplayFacts ApiFacts3 Replay2 RealInst Approx DerivSpec DerivFacts
  LinearFacts DerivFacts2 Nested NestedSpec NestedFacts NestedMain Nest NestSpec.
Import ListNotations.
Open Scope R_scope.

Notation NF k := (nops Rops k).
Notation NC k c := (ncst Rops k c).

Definition zk (k : nat) (oc : OpCode) (x : nest R k) (y : option (nest R k)) : nest R k :=
  match zero_order_value (NF k) oc x y with Ok r => r | Panic _ => NC k 0 end.
Definition fk (k : nat) (oc : OpCode) (x : nest R k) (y : option (nest R k)) (d : nest R k) (e : option (nest R k)) : nest R k :=
  match first_order_value (NF k) oc x y d e with Ok r => r | Panic _ => NC k 0 end.

Lemma zk_ok k oc x y : arity_ok oc y -> zero_order_value (NF k) oc x y = Ok (zk k oc x y).
Proof.
  intros Ha. unfold zk. destruct (zero_order_value_total (NF k) oc x y) as [r ->]; auto.
  destruct y; cbn in Ha; [right; split; auto; discriminate|auto].
Qed.
Lemma fk_ok k oc x y d e :
  arity_ok oc y -> arity_ok oc e -> first_order_value (NF k) oc x y d e = Ok (fk k oc x y d e).
Proof.
  intros Ha He. unfold fk. destruct (first_order_value_total (NF k) oc x y d e) as [r ->]; auto.
  destruct y, e; cbn in Ha, He; auto; try (destruct oc; discriminate).
  right; repeat split; auto; discriminate.
Qed.

Lemma d_fop_k k oc (x : nest R (S k)) y s :
  arity_ok oc y ->
  d_fop (NF k) oc x y s
  = Ok ((zk k oc (fst x) (option_map fst y), fk k oc (fst x) (option_map fst y) (snd x) (option_map snd y)), s).
Proof.
  intros Ha. unfold d_fop, mbind, mlift, mret.
  rewrite zk_ok by (destruct y; auto). rewrite fk_ok by (destruct y; auto). reflexivity.
Qed.

Lemma zk_S k oc (x : nest R (S k)) y :
  arity_ok oc y ->
  zk (S k) oc x y = (zk k oc (fst x) (option_map fst y), fk k oc (fst x) (option_map fst y) (snd x) (option_map snd y)).
Proof.
  intros Ha.
  assert (zk (S k) oc x y = dual (NF k) (d_fop (NF k) oc x y)) as ->
    by (destruct oc; destruct y; try discriminate; reflexivity).
  unfold dual. rewrite d_fop_k by auto. reflexivity.
Qed.

(** *** Constants *)
Lemma n_zero k : f_zero (NF k) = NC k 0.
Proof. induction k; cbn; [auto|]. rewrite IHk. reflexivity. Qed.
Lemma n_one k : f_one (NF k) = NC k 1.
Proof. induction k; cbn; [auto|]. rewrite IHk. reflexivity. Qed.
Lemma n_half k : f_half (NF k) = NC k (/ 2).
Proof. induction k; cbn; [auto|]. rewrite IHk. reflexivity. Qed.
Lemma n_of_Z k n : f_of_Z (NF k) n = NC k (IZR n).
Proof. induction k; cbn; [auto|]. rewrite IHk. reflexivity. Qed.
Lemma nc_S k c : NC (S k) c = (NC k c, NC k 0).
Proof. cbn. unfold d_cst. rewrite n_zero. reflexivity. Qed.
Lemma nval_cst k c : nval k (NC k c) = c.
Proof. induction k; cbn; auto. Qed.
Lemma n_eqb k x y : f_eqb (NF k) x y = Reqb (nval k x) (nval k y).
Proof. revert x y. induction k; cbn; auto. Qed.

Lemma nval_op k oc x y :
  arity_ok oc y -> nval k (zk k oc x y) = zv oc (nval k x) (option_map (nval k) y).
Proof.
  intros Ha. revert x y Ha. induction k as [|k IH]; intros x y Ha.
  - cbn. destruct y; reflexivity.
  - rewrite zk_S by auto. cbn [nval fst]. rewrite IH by (destruct y; auto).
    destruct y; reflexivity.
Qed.

Lemma Rpowf_half x : Rpowf x (/ 2) = sqrt x.
Proof.
  unfold Rpowf. destruct (Rlt_dec 0 x) as [H|H]; [apply Rpower_sqrt; auto|].
  destruct (Req_EM_T (IZR (Int_part (/ 2))) (/ 2)) as [E|E].
  - exfalso. assert (IZR (2 * Int_part (/ 2)) = IZR 1) as E2 by (rewrite mult_IZR, E; lra).
    apply eq_IZR in E2. lia.
  - symmetry. apply sqrt_neg_0. lra.
Qed.

(** Operations on constants *)
Lemma zk_cst k : forall oc a b, arity_ok oc b -> zk k oc (NC k a) (option_map (ncst Rops k) b) = NC k (zv oc a b).
Proof.
  induction k as [|k IH]; intros oc a b Ha.
  - cbn. destruct b; reflexivity.
  - rewrite zk_S by (destruct b; auto). rewrite !nc_S. cbn [fst snd].
    assert (option_map fst (option_map (ncst Rops (S k)) b) = option_map (ncst Rops k) b) as -> by (destruct b; auto).
    assert (option_map snd (option_map (ncst Rops (S k)) b) = option_map (fun _ => NC k 0) b) as ->
      by (destruct b; cbn [option_map]; rewrite ?nc_S; auto).
    rewrite IH by auto. f_equal.
    assert (forall a b, f_add (NF k) (NC k a) (NC k b) = NC k (a + b)) as Hadd by (intros; apply (IH Add a0 (Some b0)); reflexivity).
    assert (forall a b, f_sub (NF k) (NC k a) (NC k b) = NC k (a - b)) as Hsub by (intros; apply (IH Sub a0 (Some b0)); reflexivity).
    assert (forall a b, f_mul (NF k) (NC k a) (NC k b) = NC k (a * b)) as Hmul by (intros; apply (IH Mul a0 (Some b0)); reflexivity).
    assert (forall a b, f_div (NF k) (NC k a) (NC k b) = NC k (a / b)) as Hdiv by (intros; apply (IH Div a0 (Some b0)); reflexivity).
    assert (forall a b, f_powf (NF k) (NC k a) (NC k b) = NC k (Rpowf a b)) as Hpow by (intros; apply (IH Powf a0 (Some b0)); reflexivity).
    assert (forall a, f_sin (NF k) (NC k a) = NC k (sin a)) as Hsin by (intros; apply (IH Sin a0 None); reflexivity).
    assert (forall a, f_cos (NF k) (NC k a) = NC k (cos a)) as Hcos by (intros; apply (IH Cos a0 None); reflexivity).
    assert (forall a, f_exp (NF k) (NC k a) = NC k (exp a)) as Hexp by (intros; apply (IH Exp a0 None); reflexivity).
    assert (forall a, f_ln (NF k) (NC k a) = NC k (ln a)) as Hln by (intros; apply (IH Ln a0 None); reflexivity).
    assert (forall a, f_abs (NF k) (NC k a) = NC k (Rabs a)) as Habs by (intros; apply (IH Abs a0 None); reflexivity).
    assert (forall a n, f_powi (NF k) (NC k a) n = NC k (powerRZ a n)) as Hpowi.
    { intros. rewrite <- Rpowf_int, <- Hpow. destruct k; [apply eq_sym, Rpowf_int|].
      rewrite <- n_of_Z. reflexivity. }
    assert (forall a, f_sqrt (NF k) (NC k a) = NC k (sqrt a)) as Hsqrt.
    { intros. rewrite <- Rpowf_half, <- Hpow. destruct k; [apply eq_sym, Rpowf_half|].
      rewrite <- n_half. reflexivity. }
    assert (forall a, f_neg (NF k) (NC k a) = NC k (- a)) as Hneg.
    { intros. replace (- a0) with ((0 - 1) * a0) by ring. rewrite <- Hmul, <- Hsub, <- n_zero, <- n_one.
      destruct k; [cbn; ring|reflexivity]. }
    unfold fk. destruct oc; destruct b as [b|]; try discriminate;
      cbn [first_order_value option_map unwrap bind];
      rewrite ?n_one, ?n_zero, ?n_eqb, ?nval_cst; cbn -[powerRZ Rpowf];
      repeat (rewrite ?Hadd, ?Hsub, ?Hmul, ?Hdiv, ?Hsin, ?Hcos, ?Hexp, ?Hln, ?Habs, ?Hpowi, ?Hsqrt, ?Hneg, ?Hpow);
      try (f_equal; unfold Rdiv; ring).
    + f_equal. rewrite Rplus_0_r. ring.
    + destruct (Reqb 0 0) eqn:E0; [|apply Reqb_false in E0; congruence]. cbn.
      rewrite Hadd. f_equal. ring.
Qed.

Lemma cst_op k oc c a b : arity_ok oc b -> c = zv oc a b -> zk k oc (NC k a) (option_map (ncst Rops k) b) = NC k c.
Proof. intros Ha ->. apply zk_cst; auto. Qed.

Lemma c_add k a b : f_add (NF k) (NC k a) (NC k b) = NC k (a + b).
Proof. apply (zk_cst k Add a (Some b)). reflexivity. Qed.
Lemma c_sub k a b : f_sub (NF k) (NC k a) (NC k b) = NC k (a - b).
Proof. apply (zk_cst k Sub a (Some b)). reflexivity. Qed.

Lemma n_powi k x n : f_powi (NF k) x n = f_powf (NF k) x (NC k (IZR n)).
Proof. destruct k; [apply eq_sym, Rpowf_int|]. rewrite <- n_of_Z. reflexivity. Qed.
Lemma n_sqrt k x : f_sqrt (NF k) x = f_powf (NF k) x (NC k (/ 2)).
Proof. destruct k; [apply eq_sym, Rpowf_half|]. rewrite <- n_half. reflexivity. Qed.
Lemma n_neg k x : f_neg (NF k) x = f_mul (NF k) (NC k (-1)) x.
Proof.
  replace (-1) with (0 - 1) by ring. rewrite <- c_sub, <- n_zero, <- n_one.
  destruct k; [cbn; ring|reflexivity].
Qed.

(** Zero *)
Lemma mul_0_r k : forall p, f_mul (NF k) p (NC k 0) = NC k 0.
Proof.
  induction k as [|k IH]; intros p; [apply Rmult_0_r|].
  change (f_mul (NF (S k)) p (NC (S k) 0)) with (zk (S k) Mul p (Some (NC (S k) 0))).
  rewrite zk_S by reflexivity. rewrite nc_S. cbn [option_map fst snd].
  unfold zk, fk. cbn [zero_order_value first_order_value unwrap bind].
  rewrite !IH, c_add. rewrite Rplus_0_r. reflexivity.
Qed.

Lemma nval_mul k p q : nval k (f_mul (NF k) p q) = nval k p * nval k q.
Proof. apply (nval_op k Mul p (Some q)). reflexivity. Qed.
Lemma nval_add k p q : nval k (f_add (NF k) p q) = nval k p + nval k q.
Proof. apply (nval_op k Add p (Some q)). reflexivity. Qed.
Lemma nval_sub k p q : nval k (f_sub (NF k) p q) = nval k p - nval k q.
Proof. apply (nval_op k Sub p (Some q)). reflexivity. Qed.
Lemma nval_powf k p q : nval k (f_powf (NF k) p q) = Rpowf (nval k p) (nval k q).
Proof. apply (nval_op k Powf p (Some q)). reflexivity. Qed.
Lemma nval_cos k p : nval k (f_cos (NF k) p) = cos (nval k p).
Proof. apply (nval_op k Cos p None). reflexivity. Qed.
Lemma nval_powi k p n : nval k (f_powi (NF k) p n) = powerRZ (nval k p) n.
Proof. rewrite n_powi, nval_powf, nval_cst. apply Rpowf_int. Qed.

Lemma powf_S k (x y : nest R (S k)) :
  f_powf (NF (S k)) x y
  = (f_powf (NF k) (fst x) (fst y),
     f_add (NF k)
       (if negb (Reqb (nval k (snd x)) 0)
        then f_mul (NF k) (f_mul (NF k) (fst y) (f_powf (NF k) (fst x) (f_sub (NF k) (fst y) (NC k 1)))) (snd x)
        else NC k 0)
       (if negb (Reqb (nval k (snd y)) 0)
        then f_mul (NF k) (f_mul (NF k) (f_ln (NF k) (fst x)) (f_powf (NF k) (fst x) (fst y))) (snd y)
        else NC k 0)).
Proof.
  change (f_powf (NF (S k)) x y) with (zk (S k) Powf x (Some y)). rewrite zk_S by reflexivity.
  unfold zk, fk. cbn [zero_order_value first_order_value option_map unwrap bind].
  rewrite !n_eqb, n_zero, nval_cst, n_one. reflexivity.
Qed.

(** *** Settled numbers *)
Lemma settled_settled1 k x : settled k x -> settled1 k x.
Proof. destruct k; cbn; auto. intros [H _]; auto. Qed.
Lemma settled1_settled2 k x : settled1 k x -> settled2 k x.
Proof. destruct k; cbn; auto. apply settled_settled1. Qed.

Lemma settled_sub_cst k x c : settled k x -> settled k (f_sub (NF k) x (NC k c)).
Proof.
  revert x c. induction k as [|k IH]; intros x c; [auto|]. intros [H1 H2].
  change (f_sub (NF (S k)) x (NC (S k) c)) with (zk (S k) Sub x (Some (NC (S k) c))).
  rewrite zk_S by reflexivity. rewrite nc_S. split; cbn [fst snd option_map].
  - apply (IH (fst x) c H1).
  - unfold fk. cbn [first_order_value unwrap bind]. rewrite nval_sub, nval_cst, Rminus_0_r.
    intros H. rewrite H2 by auto. rewrite c_sub. f_equal. ring.
Qed.

Lemma powf_nz a n : a <> 0 -> Rpowf a (IZR n) <> 0.
Proof. intros H. rewrite Rpowf_int. apply powerRZ_NOR. auto. Qed.

Lemma settled_powf k x c :
  settled k x -> c <> 0 -> 0 < nval k x \/ (nval k x <> 0 /\ exists n, c = IZR n) ->
  settled k (f_powf (NF k) x (NC k c)).
Proof.
  revert x. induction k as [|k IH]; intros x; [auto|]. intros [H1 H2] Hc Hx.
  rewrite powf_S, nc_S. split; cbn [fst snd].
  - apply IH; auto.
  - rewrite nval_cst.
    destruct (Reqb 0 0) eqn:E0; [|apply Reqb_false in E0; congruence]. cbn [negb].
    destruct (Reqb (nval k (snd x)) 0) eqn:Ed; cbn [negb].
    + intros _. rewrite c_add. f_equal. ring.
    + apply Reqb_false in Ed. rewrite nval_add, !nval_mul, nval_powf, nval_sub, !nval_cst, Rplus_0_r.
      intros H. exfalso. revert H. apply Rmult_integral_contrapositive. split; auto.
      apply Rmult_integral_contrapositive. split; auto. cbn [nval fst] in Hx.
      destruct Hx as [Hp|[Hn (n & ->)]].
      * rewrite Rpowf_pos by auto. unfold Rpower. pose proof (exp_pos ((c - 1) * ln (nval k (fst x)))). lra.
      * rewrite <- minus_IZR. apply powf_nz. auto.
Qed.

(** *** Near *)
Lemma near_imp k : forall P Q : list R -> Prop, (forall e, P e -> Q e) -> near k P -> near k Q.
Proof.
  induction k as [|k IH]; intros P Q H; cbn; auto. apply IH. intros e (d & Hd & HP). exists d. auto.
Qed.
Lemma near_and k : forall P Q : list R -> Prop, near k P -> near k Q -> near k (fun e => P e /\ Q e).
Proof.
  induction k as [|k IH]; intros P Q; cbn; auto. intros HP HQ. eapply near_imp; [|apply (IH _ _ HP HQ)].
  cbn. intros e [(d & Hd & H1) (d' & Hd' & H2)]. exists (Rmin d d'). split; [apply Rmin_pos; auto|].
  intros t Ht. pose proof (Rmin_l d d'). pose proof (Rmin_r d d'). split; [apply H1|apply H2]; lra.
Qed.
Lemma near_all k (P : list R -> Prop) : (forall e, P e) -> near k P.
Proof.
  revert P. induction k as [|k IH]; intros P H; cbn; auto. apply IH. intros e. exists 1. split; [lra|auto].
Qed.
Lemma near_0 k (P : list R -> Prop) : near (S k) P -> near k (fun e => P (0 :: e)).
Proof.
  cbn. apply near_imp. intros e (d & Hd & H). apply H. rewrite Rabs_R0. auto.
Qed.

Lemma d_ext_near (f g : R -> R) l :
  (exists d, 0 < d /\ forall t, Rabs t < d -> f t = g t) -> derivable_pt_lim f 0 l -> derivable_pt_lim g 0 l.
Proof.
  intros (d & Hd & H) Hf e He. destruct (Hf e He) as (d1 & H1).
  assert (0 < Rmin d d1) as Hm by (apply Rmin_pos; auto; apply cond_pos).
  exists (mkposreal _ Hm). cbn. intros h Hh Hlt.
  pose proof (Rmin_l d d1). pose proof (Rmin_r d d1).
  rewrite <- !H; [apply H1; auto; lra| |]; rewrite ?Rplus_0_l, ?Rabs_R0; lra.
Qed.

Lemma d_cont f l : derivable_pt_lim f 0 l -> forall e, 0 < e -> exists d, 0 < d /\ forall t, Rabs t < d -> Rabs (f t - f 0) < e.
Proof.
  intros H. assert (continuity_pt f 0) as Hc.
  { apply derivable_continuous_pt. exists l. exact H. }
  intros e He. destruct (Hc e He) as (d & Hd & H1). exists d. split; auto. intros t Ht.
  destruct (Req_dec t 0) as [->|Hn]; [unfold Rminus; rewrite Rplus_opp_r, Rabs_R0; auto|].
  apply H1. split; [split; [exact I|auto]|]. cbn. unfold R_dist. rewrite Rminus_0_r. auto.
Qed.

Lemma derivs_ext k : forall x g h, near k (fun e => g e = h e) -> derivs k x g -> derivs k x h.
Proof.
  induction k as [|k IH]; intros x g h E; cbn [derivs].
  - cbn in E. congruence.
  - intros [H1 (g' & H2 & H3)]. split.
    + eapply IH; [|apply H1]. apply near_0 in E. exact E.
    + exists g'. split; auto. cbn in E. eapply near_imp; [|apply (near_and _ _ _ E H2)].
      cbn. intros e [He Hd]. eapply d_ext_near; [|apply Hd]. auto.
Qed.
Lemma derivs_ext_all k x g h : (forall e, g e = h e) -> derivs k x g -> derivs k x h.
Proof. intros E. apply derivs_ext. apply near_all. auto. Qed.

Lemma derivs_cst k c : derivs k (NC k c) (fun _ => c).
Proof.
  revert c. induction k as [|k IH]; intros c; [reflexivity|]. rewrite nc_S. split; cbn [fst snd]; auto.
  exists (fun _ => 0). split; auto. apply near_all. intros e. apply derivable_pt_lim_const.
Qed.

Definition opn (U : R -> Prop) : Prop := forall r, U r -> exists d, 0 < d /\ forall s, Rabs (s - r) < d -> U s.

Lemma derivs_val k : forall x g, derivs k x g -> nval k x = g (repeat 0 k).
Proof. induction k as [|k IH]; cbn; auto. intros x g [H _]. apply (IH _ _ H). Qed.

Lemma derivs_open k U : opn U -> forall x g, derivs k x g -> U (nval k x) -> near k (fun e => U (g e)).
Proof.
  intros HO. induction k as [|k IH]; intros x g; cbn [derivs near nval].
  - intros ->. auto.
  - intros [H1 (g' & H2 & _)] HU.
    eapply near_imp; [|apply (near_and _ _ _ (IH _ _ H1 HU) H2)]. cbn.
    intros e [He Hd]. destruct (HO _ He) as (d & Hd0 & H).
    destruct (d_cont _ _ Hd d Hd0) as (d1 & Hd1 & Hc). exists d1. split; auto.
Qed.

Lemma opn_pos : opn (fun r => 0 < r).
Proof.
  intros r Hr. exists r. split; auto. intros s Hs. apply Rabs_def2 in Hs. lra.
Qed.
Lemma opn_nz : opn (fun r => r <> 0).
Proof.
  intros r Hr. exists (Rabs r). split; [apply Rabs_pos_lt; auto|]. intros s Hs ->.
  unfold Rminus in Hs. rewrite Rplus_0_l, Rabs_Ropp in Hs. lra.
Qed.
Lemma opn_range : opn (fun r => -1 < r < 1).
Proof.
  intros r Hr. exists (Rmin (r - -1) (1 - r)). split; [apply Rmin_pos; lra|]. intros s Hs.
  apply Rabs_def2 in Hs. pose proof (Rmin_l (r - -1) (1 - r)). pose proof (Rmin_r (r - -1) (1 - r)). lra.
Qed.
Lemma opn_cos : opn (fun r => cos r <> 0).
Proof.
  intros r Hr. pose proof (Rabs_pos_lt _ Hr) as Hp.
  destruct (continuity_cos r (Rabs (cos r)) Hp) as (d & Hd & H). exists d. split; auto.
  intros s Hs E. destruct (Req_dec s r) as [->|Hn]; [auto|].
  assert (R_dist (cos s) (cos r) < Rabs (cos r)) as Hlt.
  { apply H. split; [split; [exact I|auto]|]. exact Hs. }
  unfold R_dist in Hlt. rewrite E in Hlt. unfold Rminus in Hlt. rewrite Rplus_0_l, Rabs_Ropp in Hlt. lra.
Qed.

(** *** The domains *)
Definition still (k : nat) (x : nest R k) (g : list R -> R) : Prop :=
  exists c, x = NC k c /\ forall e, g e = c.

Lemma still_derivs k x g : still k x g -> derivs k x g.
Proof. intros (c & -> & H). eapply derivs_ext_all; [|apply (derivs_cst k c)]. auto. Qed.

Lemma fst_op1 k oc (x : nest R (S k)) : unary_oc oc = true -> fst (zk (S k) oc x None) = zk k oc (fst x) None.
Proof. intros H. rewrite zk_S; auto. Qed.
Lemma fst_op2 k oc (x y : nest R (S k)) :
  binary_oc oc = true -> fst (zk (S k) oc x (Some y)) = zk k oc (fst x) (Some (fst y)).
Proof. intros H. rewrite zk_S; auto. Qed.
Lemma fst_powi k (x : nest R (S k)) n : fst (f_powi (NF (S k)) x n) = f_powi (NF k) (fst x) n.
Proof.
  rewrite !n_powi.
  change (fst (zk (S k) Powf x (Some (NC (S k) (IZR n)))) = zk k Powf (fst x) (Some (NC k (IZR n)))).
  rewrite fst_op2 by reflexivity. reflexivity.
Qed.
Lemma fst_one_sub_sq k (x : nest R (S k)) :
  fst (f_sub (NF (S k)) (f_one (NF (S k))) (f_powi (NF (S k)) x 2))
  = f_sub (NF k) (f_one (NF k)) (f_powi (NF k) (fst x) 2).
Proof.
  change (fst (zk (S k) Sub (f_one (NF (S k))) (Some (f_powi (NF (S k)) x 2)))
          = zk k Sub (f_one (NF k)) (Some (f_powi (NF k) (fst x) 2))).
  rewrite fst_op2 by reflexivity. rewrite fst_powi. reflexivity.
Qed.
Lemma fst_one_add_sq k (x : nest R (S k)) :
  fst (f_add (NF (S k)) (f_one (NF (S k))) (f_powi (NF (S k)) x 2))
  = f_add (NF k) (f_one (NF k)) (f_powi (NF k) (fst x) 2).
Proof.
  change (fst (zk (S k) Add (f_one (NF (S k))) (Some (f_powi (NF (S k)) x 2)))
          = zk k Add (f_one (NF k)) (Some (f_powi (NF k) (fst x) 2))).
  rewrite fst_op2 by reflexivity. rewrite fst_powi. reflexivity.
Qed.
Lemma fst_cos k (x : nest R (S k)) : fst (f_cos (NF (S k)) x) = f_cos (NF k) (fst x).
Proof. apply (fst_op1 k Cos x). reflexivity. Qed.

Lemma dom_fst k oc (x : nest R (S k)) y bc :
  in_domain_n (S k) oc x y bc -> in_domain_n k oc (fst x) (option_map fst y) bc.
Proof.
  assert (forall a : R, (a <> 0 \/ (S k <= 3)%nat) -> (a <> 0 \/ (k <= 3)%nat)) as H3.
  { intros a [|]; auto. right. lia. }
  destruct oc; cbn [in_domain_n]; auto.
  - intros H z Hz. destruct y as [y|]; [|discriminate]. injection Hz as <-.
    destruct (H y eq_refl) as [Hn Hs]. split; [exact Hn|]. apply settled_settled1. exact Hs.
  - intros [Hc Hs]. split; [exact Hc|]. cbn [settled1] in Hs. rewrite fst_cos in Hs.
    apply settled_settled1. exact Hs.
  - intros [Hc Hs]. split; [exact Hc|]. apply settled1_settled2. exact Hs.
  - intros (Hr & H & Hs1 & Hs2). cbn [settled1] in Hs1, Hs2. rewrite fst_one_sub_sq in Hs2.
    split; [exact Hr|]. split; [apply H3; exact H|]. split; apply settled_settled1; auto.
  - intros (Hr & H & Hs1 & Hs2). cbn [settled1] in Hs1, Hs2. rewrite fst_one_sub_sq in Hs2.
    split; [exact Hr|]. split; [apply H3; exact H|]. split; apply settled_settled1; auto.
  - intros (H & Hs1 & Hs2). cbn [settled1] in Hs1. unfold settled2 in Hs2. rewrite fst_one_add_sq in Hs2.
    split; [apply H3; exact H|]. split; [apply settled_settled1; auto|apply settled1_settled2; auto].
  - intros H z Hz. destruct y as [y|]; [|discriminate]. injection Hz as <-.
    destruct (H y eq_refl) as (HD & [Hs1 _] & [Hs2 _]). split; [|auto].
    destruct HD as [Hp|[Hb (n & En & Hn)]]; [left; exact Hp|]. right. split; auto.
    exists n. split; [exact En|]. destruct Hn as [Hn|Hn]; [left; exact Hn|right; lia].
Qed.

Lemma dom_plain k oc (x : nest R (S k)) y bc :
  in_domain_n (S k) oc x y bc -> in_domain oc (nval (S k) x) (option_map (nval (S k)) y) bc.
Proof.
  destruct oc; cbn [in_domain_n in_domain]; auto; try tauto.
  - intros H z Hz. destruct y as [y|]; [|discriminate]. injection Hz as <-. apply (H y eq_refl).
  - intros H z Hz. destruct y as [y|]; [|discriminate]. injection Hz as <-.
    destruct (H y eq_refl) as [[Hp|[Hb (n & En & Hn)]] _]; [left; exact Hp|]. right. split; auto.
    exists n. split; [exact En|]. destruct Hn as [Hn|Hn]; [left; exact Hn|right; lia].
Qed.

Lemma dom_near k oc (x : nest R k) g (y : option (nest R k * (list R -> R))) bc :
  in_domain oc (nval k x) (option_map (fun z => nval k (fst z)) y) bc ->
  derivs k x g -> (forall z, y = Some z -> derivs k (fst z) (snd z)) ->
  (bc = true -> forall z, y = Some z -> still k (fst z) (snd z)) ->
  near k (fun e => in_domain oc (g e) (option_map (fun z => snd z e) y) bc).
Proof.
  intros HD Hx Hy Hs. destruct oc; try (apply near_all; cbn; auto; fail); cbn [in_domain] in *.
  - destruct y as [[y chi]|]; [|apply near_all; cbn; discriminate].
    pose proof (HD _ eq_refl) as Hn.
    eapply near_imp; [|apply (derivs_open k _ opn_nz _ _ (Hy _ eq_refl) Hn)]. cbn. intros e He ? [= <-]. auto.
  - apply (derivs_open k _ opn_cos _ _ Hx). apply HD.
  - apply (derivs_open k _ opn_pos _ _ Hx). apply HD.
  - apply (derivs_open k _ opn_range _ _ Hx). apply HD.
  - apply (derivs_open k _ opn_range _ _ Hx). apply HD.
  - destruct y as [[y chi]|]; [|apply near_all; cbn; discriminate].
    destruct (HD _ eq_refl) as [Hp|[-> (n & En & Hn)]].
    + eapply near_imp; [|apply (derivs_open k _ opn_pos _ _ Hx Hp)]. cbn. intros e He ? [= <-]; auto.
    + destruct (Hs eq_refl _ eq_refl) as (c & Ec & Hc). cbn [fst snd] in *. subst y. rewrite nval_cst in En. subst c.
      destruct Hn as [Hn|Hn].
      * eapply near_imp; [|apply (derivs_open k _ opn_nz _ _ Hx Hn)]. cbn. intros e He ? [= <-].
        right. split; auto. exists n. rewrite Hc. auto.
      * apply near_all. cbn. intros e ? [= <-]. right. split; auto. exists n. rewrite Hc. auto.
Qed.

(** *** One more derivative *)
Lemma near_deriv k oc g g' (y : option ((list R -> R) * (list R -> R))) bc :
  arity_ok oc y -> oc <> Abs ->
  near k (fun e => derivable_pt_lim (fun t => g (t :: e)) 0 (g' e)) ->
  (forall z, y = Some z -> near k (fun e => derivable_pt_lim (fun t => fst z (t :: e)) 0 (snd z e))) ->
  near k (fun e => in_domain oc (g (0 :: e)) (option_map (fun z => fst z (0 :: e)) y) bc) ->
  (bc = true -> forall z, y = Some z -> exists c, forall e, fst z e = c) ->
  near k (fun e => derivable_pt_lim (fun t => zv oc (g (t :: e)) (option_map (fun z => fst z (t :: e)) y)) 0
    (fv oc (g (0 :: e)) (option_map (fun z => fst z (0 :: e)) y) (g' e) (option_map (fun z => snd z e) y))).
Proof.
  intros Ha NA Hx Hy HD HS.
  assert (near k (fun e => forall z, y = Some z -> derivable_pt_lim (fun t => fst z (t :: e)) 0 (snd z e))) as Hy'.
  { destruct y as [z|]; [|apply near_all; discriminate].
    eapply near_imp; [|apply (Hy z eq_refl)]. cbn. intros e He ? [= <-]. auto. }
  eapply near_imp; [|apply (near_and _ _ _ HD (near_and _ _ _ Hx Hy'))]. cbn.
  intros e (H1 & H2 & H3).
  set (yt := option_map (fun z : (list R -> R) * (list R -> R) =>
                ((fst z (0 :: e), snd z e), fun t => fst z (t :: e))) y).
  assert (rep (dop oc (g (0 :: e), g' e) (option_map fst yt))
              (fun t => zv oc (g (t :: e)) (option_map (fun z => snd z t) yt))) as HR.
  { apply (rep_op oc (g (0 :: e), g' e) (fun t => g (t :: e)) yt); auto.
    - unfold yt; destruct y; auto.
    - cbn [fst].
      assert (option_map (fun z => fst (fst z)) yt = option_map (fun z => fst z (0 :: e)) y) as ->
        by (unfold yt; destruct y; auto).
      destruct bc; [right|left; auto]. split; auto.
      unfold yt. intros z Ez. destruct y as [z0|]; [|discriminate]. injection Ez as <-.
      destruct (HS eq_refl z0 eq_refl) as (c & Hc). split; cbn.
      + apply (uniqueness_limite (fun t => fst z0 (t :: e)) 0); [apply (H3 z0 eq_refl)|].
        eapply d_ext_near; [|apply (derivable_pt_lim_const c)]. exists 1. split; [lra|]. intros. rewrite Hc. reflexivity.
      + intros h. rewrite !Hc. reflexivity.
    - apply rep_iff. auto.
    - unfold yt. intros z Ez. destruct y as [z0|]; [|discriminate]. injection Ez as <-.
      apply rep_iff. cbn. split; auto. }
  apply rep_iff in HR. destruct HR as [_ HR]. cbn beta in HR.
  assert (snd (dop oc (g (0 :: e), g' e) (option_map fst yt))
          = fv oc (g (0 :: e)) (option_map (fun z => fst z (0 :: e)) y) (g' e) (option_map (fun z => snd z e) y)) as <-.
  { unfold dop, dual, d_fop, mbind, mlift, mret. cbn [fst snd].
    assert (option_map fst (option_map fst yt) = option_map (fun z => fst z (0 :: e)) y) as ->
      by (unfold yt; destruct y; auto).
    assert (option_map snd (option_map fst yt) = option_map (fun z => snd z e) y) as ->
      by (unfold yt; destruct y; auto).
    rewrite zv_ok by (destruct y; auto). rewrite fv_ok by (destruct y; auto). reflexivity. }
  eapply d_ext_near; [|apply HR]. exists 1. split; [lra|]. intros t _. cbn. f_equal.
  unfold yt. destruct y; auto.
Qed.

(** *** The operations at one level *)
Definition ops_ok (k : nat) : Prop :=
  forall oc x g (y : option (nest R k * (list R -> R))) bc,
  arity_ok oc y -> in_domain_n k oc x (option_map fst y) bc ->
  (bc = true -> forall z, y = Some z -> still k (fst z) (snd z)) ->
  derivs k x g -> (forall z, y = Some z -> derivs k (fst z) (snd z)) ->
  derivs k (zk k oc x (option_map fst y)) (fun e => zv oc (g e) (option_map (fun z => snd z e) y)).

Section Level.
Context (k : nat) (OK : ops_ok k).

Lemma k_op1 oc x g :
  unary_oc oc = true -> in_domain_n k oc x None false -> derivs k x g ->
  derivs k (zk k oc x None) (fun e => zv oc (g e) None).
Proof. intros. apply (OK oc x g None false); auto; discriminate. Qed.

Lemma k_op2 oc x g y h :
  binary_oc oc = true -> in_domain_n k oc x (Some y) false -> derivs k x g -> derivs k y h ->
  derivs k (zk k oc x (Some y)) (fun e => zv oc (g e) (Some (h e))).
Proof.
  intros Hb HD Hx Hy. apply (OK oc x g (Some (y, h)) false); auto; try discriminate.
  intros z [= <-]. auto.
Qed.

Lemma k_add x g y h : derivs k x g -> derivs k y h -> derivs k (f_add (NF k) x y) (fun e => g e + h e).
Proof. intros. apply (k_op2 Add x g y h); cbn; auto. Qed.
Lemma k_sub x g y h : derivs k x g -> derivs k y h -> derivs k (f_sub (NF k) x y) (fun e => g e - h e).
Proof. intros. apply (k_op2 Sub x g y h); cbn; auto. Qed.
Lemma k_mul x g y h : derivs k x g -> derivs k y h -> derivs k (f_mul (NF k) x y) (fun e => g e * h e).
Proof. intros. apply (k_op2 Mul x g y h); cbn; auto. Qed.
Lemma k_div x g y h :
  nval k y <> 0 -> settled1 k y -> derivs k x g -> derivs k y h -> derivs k (f_div (NF k) x y) (fun e => g e / h e).
Proof. intros. apply (k_op2 Div x g y h); auto. cbn. intros ? [= <-]. auto. Qed.
Lemma k_sin x g : derivs k x g -> derivs k (f_sin (NF k) x) (fun e => sin (g e)).
Proof. intros. apply (k_op1 Sin x g); cbn; auto. Qed.
Lemma k_cos x g : derivs k x g -> derivs k (f_cos (NF k) x) (fun e => cos (g e)).
Proof. intros. apply (k_op1 Cos x g); cbn; auto. Qed.
Lemma k_exp x g : derivs k x g -> derivs k (f_exp (NF k) x) (fun e => exp (g e)).
Proof. intros. apply (k_op1 Exp x g); cbn; auto. Qed.
Lemma k_ln x g : 0 < nval k x -> settled2 k x -> derivs k x g -> derivs k (f_ln (NF k) x) (fun e => ln (g e)).
Proof. intros. apply (k_op1 Ln x g); cbn; auto. Qed.
Lemma k_powf x g y h :
  0 < nval k x -> settled k x -> settled k y -> derivs k x g -> derivs k y h ->
  derivs k (f_powf (NF k) x y) (fun e => Rpowf (g e) (h e)).
Proof. intros. apply (k_op2 Powf x g y h); auto. cbn. intros ? [= <-]. auto. Qed.
Lemma settled_cst c : settled k (NC k c).
Proof.
  clear. revert c. induction k as [|k' IH]; intros c; [exact I|]. rewrite nc_S. split; cbn [fst snd]; auto.
Qed.
Lemma k_powf_int x g n :
  nval k x <> 0 \/ (Z.of_nat k <= n)%Z -> settled k x -> derivs k x g ->
  derivs k (f_powf (NF k) x (NC k (IZR n))) (fun e => Rpowf (g e) (IZR n)).
Proof.
  intros Hn Hs Hx. apply (OK Powf x g (Some (NC k (IZR n), fun _ => IZR n)) true); auto.
  - reflexivity.
  - intros z [= <-]. split; [|split; [auto|apply settled_cst]]. right. split; auto.
    exists n. rewrite nval_cst. auto.
  - intros _ z [= <-]. exists (IZR n). auto.
  - intros z [= <-]. cbn [fst snd]. apply (derivs_cst k (IZR n)).
Qed.
Lemma k_neg x g : derivs k x g -> derivs k (f_neg (NF k) x) (fun e => - g e).
Proof.
  intros Hx. rewrite n_neg. eapply derivs_ext_all; [|apply k_mul; [apply derivs_cst|apply Hx]].
  intros e. cbn. ring.
Qed.
Lemma k_sq x g :
  nval k x <> 0 \/ (k <= 2)%nat -> settled k x -> derivs k x g ->
  derivs k (f_powi (NF k) x 2) (fun e => powerRZ (g e) 2).
Proof.
  intros Hn Hs Hx. rewrite n_powi. eapply derivs_ext_all; [|apply (k_powf_int x g 2); auto].
  - intros e. apply Rpowf_int.
  - destruct Hn; auto. right. lia.
Qed.
Lemma k_sqrt x g : 0 < nval k x -> settled k x -> derivs k x g -> derivs k (f_sqrt (NF k) x) (fun e => sqrt (g e)).
Proof.
  intros Hp Hs Hx. rewrite n_sqrt. eapply derivs_ext_all; [|apply k_powf; [apply Hp|apply Hs| |apply Hx|apply (derivs_cst k (/ 2))]].
  - intros e. apply Rpowf_half.
  - apply settled_cst.
Qed.
Lemma k_one : derivs k (f_one (NF k)) (fun _ => 1).
Proof. rewrite n_one. apply derivs_cst. Qed.

Lemma HifD p q :
  (nval k q = 0 -> q = NC k 0) ->
  (if negb (f_eqb (NF k) q (f_zero (NF k))) then f_mul (NF k) p q else f_zero (NF k)) = f_mul (NF k) p q.
Proof.
  intros Hz. rewrite n_eqb, n_zero, nval_cst. destruct (Reqb (nval k q) 0) eqn:Eq; cbn; auto.
  apply Reqb_true in Eq. rewrite (Hz Eq), mul_0_r. reflexivity.
Qed.

(** The derivative rules at this level are the derivatives of the rules. *)
Lemma k_rule oc x g d g' (y e : option (nest R k * (list R -> R))) bc :
  arity_ok oc y -> arity_ok oc e ->
  in_domain_n (S k) oc (x, d)
    (match y, e with Some y, Some e => Some (fst y, fst e) | _, _ => None end) bc ->
  (bc = true -> (forall z, y = Some z -> still k (fst z) (snd z)) /\
     (forall z, e = Some z -> fst z = NC k 0 /\ near k (fun p => snd z p = 0))) ->
  derivs k x g -> derivs k d g' ->
  (forall z, y = Some z -> derivs k (fst z) (snd z)) -> (forall z, e = Some z -> derivs k (fst z) (snd z)) ->
  derivs k (fk k oc x (option_map fst y) d (option_map fst e))
    (fun p => fv oc (g p) (option_map (fun z => snd z p) y) (g' p) (option_map (fun z => snd z p) e)).
Proof.
  intros Hay Hae HD HS Hx Hd Hy He.
  assert (forall z, y = Some z -> derivs k (fst z) (snd z)) as Hy1 by auto.
  assert (forall z, e = Some z -> derivs k (fst z) (snd z)) as He1 by auto.
  assert (forall a : R, (a <> 0 \/ (S k <= 3)%nat) -> (a <> 0 \/ (k <= 2)%nat)) as H3.
  { intros a [|]; auto. right. lia. }
  unfold fk.
  destruct oc; cbn in Hay, Hae; destruct y as [y|]; try discriminate;
    destruct e as [e|]; try discriminate;
    try specialize (Hy1 _ eq_refl); try specialize (He1 _ eq_refl);
    cbn [first_order_value option_map unwrap bind]; unfold fv; cbn [first_order_value unwrap bind option_map].
  - apply k_add; auto.
  - apply k_sub; auto.
  - apply k_add; apply k_mul; auto.
  - (* div *)
    destruct (HD _ eq_refl) as [Hn Hs]. cbn [nval fst settled1] in Hn, Hs.
    apply k_div; auto.
    + rewrite nval_powi, powerRZ_2. nra.
    + rewrite n_powi. apply settled_settled1. apply settled_powf; [auto|apply not_0_IZR; discriminate|]. right. split; eauto.
    + apply k_sub; apply k_mul; auto.
    + apply k_sq; auto.
  - apply k_mul; auto. apply k_cos; auto.
  - apply k_mul; [apply k_neg|apply k_sin]; auto.
  - (* tan *)
    destruct HD as [Hn Hs]. cbn [settled1] in Hs. rewrite fst_cos in Hs. cbn [nval fst] in Hn, Hs.
    assert (nval k (f_cos (NF k) x) <> 0) as Hn' by (rewrite nval_cos; auto).
    apply k_mul; auto. apply k_div; [| |apply k_one|apply k_sq; auto; apply k_cos; auto].
    + rewrite nval_powi, powerRZ_2. nra.
    + rewrite n_powi. apply settled_settled1. apply settled_powf; [auto|apply not_0_IZR; discriminate|]. right. split; eauto.
  - destruct HD.
  - apply k_mul; auto. apply k_exp; auto.
  - (* ln *)
    destruct HD as [Hn Hs]. cbn [nval fst settled2] in Hn, Hs.
    apply k_mul; auto. apply k_div; [lra|auto|apply k_one|auto].
  - (* asin *)
    destruct HD as (Hr & H2 & Hs1 & Hs2). cbn [settled1] in Hs1, Hs2. rewrite fst_one_sub_sq in Hs2.
    cbn [nval fst] in *. pose proof (sq_lt_1 _ Hr) as Hq.
    assert (0 < nval k (f_sub (NF k) (f_one (NF k)) (f_powi (NF k) x 2))) as Hq'.
    { rewrite nval_sub, nval_powi, n_one, nval_cst. exact Hq. }
    apply k_div; auto.
    + rewrite n_sqrt, nval_powf, nval_cst, Rpowf_half. pose proof (sqrt_lt_R0 _ Hq'). lra.
    + rewrite n_sqrt. apply settled_settled1, settled_powf; [auto|lra|auto].
    + apply k_sqrt; auto. apply k_sub; [apply k_one|apply k_sq; auto].
  - (* acos *)
    destruct HD as (Hr & H2 & Hs1 & Hs2). cbn [settled1] in Hs1, Hs2. rewrite fst_one_sub_sq in Hs2.
    cbn [nval fst] in *. pose proof (sq_lt_1 _ Hr) as Hq.
    assert (0 < nval k (f_sub (NF k) (f_one (NF k)) (f_powi (NF k) x 2))) as Hq'.
    { rewrite nval_sub, nval_powi, n_one, nval_cst. exact Hq. }
    apply k_div; auto using k_neg.
    + rewrite n_sqrt, nval_powf, nval_cst, Rpowf_half. pose proof (sqrt_lt_R0 _ Hq'). lra.
    + rewrite n_sqrt. apply settled_settled1, settled_powf; [auto|lra|auto].
    + apply k_sqrt; auto. apply k_sub; [apply k_one|apply k_sq; auto].
  - (* atan *)
    destruct HD as (H2 & Hs1 & Hs2). cbn [settled1] in Hs1. unfold settled2 in Hs2. rewrite fst_one_add_sq in Hs2.
    cbn [nval fst] in *.
    apply k_div; auto.
    + rewrite nval_add, nval_powi, n_one, nval_cst, powerRZ_2. nra.
    + apply k_add; [apply k_one|apply k_sq; auto].
  - (* powf *)
    destruct y as [y chi], e as [e eta]. cbn [fst snd option_map] in *.
    assert (forall c d, (if negb (f_eqb Rops d (f_zero Rops)) then f_mul Rops c d else f_zero Rops) = c * d) as Hif.
    { intros c d0. cbn. destruct (Reqb d0 0) eqn:Ed; cbn; auto. apply Reqb_true in Ed. subst. ring. }
    destruct (HD _ eq_refl) as (HP & [Hs1 Hd0] & [Hs2 He0]). cbn [fst snd] in *.
    rewrite !HifD by auto.
    eapply derivs_ext_all with (g := fun p =>
      (chi p * Rpowf (g p) (chi p - 1)) * g' p + (ln (g p) * Rpowf (g p) (chi p)) * eta p).
    { intros p. rewrite !Hif. reflexivity. }
    destruct HP as [Hp|[Hb (n & En & Hn)]].
    + cbn [nval fst] in Hp. apply k_add.
      * apply k_mul; auto. apply k_mul; auto. rewrite n_one. apply k_powf; auto.
        -- apply settled_sub_cst; auto.
        -- apply k_sub; auto. apply derivs_cst.
      * apply k_mul; auto. apply k_mul; [apply k_ln; auto|apply k_powf; auto].
        apply settled1_settled2, settled_settled1; auto.
    + destruct (HS Hb) as [Sy Se]. destruct (Sy _ eq_refl) as (c & Ec & Hc).
      destruct (Se _ eq_refl) as [Ee Heta]. cbn [fst snd nval] in *. subst y e. rewrite nval_cst in En. subst c.
      apply k_add.
      * apply k_mul; auto. apply k_mul; auto. rewrite n_one, c_sub, <- minus_IZR.
        eapply derivs_ext_all; [|apply (k_powf_int x g (n - 1)); auto].
        -- intros p. cbn. rewrite Hc, minus_IZR. reflexivity.
        -- destruct Hn as [Hn|Hn]; [auto|]. right. lia.
      * rewrite mul_0_r. eapply derivs_ext; [|apply (derivs_cst k 0)].
        eapply near_imp; [|apply Heta]. cbn. intros p ->. ring.
Qed.
End Level.

Theorem nest_ops k : ops_ok k.
Proof.
  induction k as [|k IH]; intros oc x g y bc Ha HD HS Hx Hy.
  - cbn in Hx. subst x. cbn [derivs]. unfold zk, zv. cbn [nops].
    assert (option_map fst y = option_map (fun z => snd z []) y) as ->.
    { destruct y as [z|]; auto. cbn. f_equal. apply (Hy z eq_refl). }
    reflexivity.
  - destruct Hx as [Hx (g' & Hg & Hd)].
    rewrite zk_S by (destruct y; auto). cbn [derivs fst snd].
    pose proof (dom_fst _ _ _ _ _ HD) as HDf. pose proof (dom_plain _ _ _ _ _ HD) as HDp.
    assert (oc <> Abs) as NA by (intros ->; destruct HD).
    destruct y as [[z gz]|].
    + destruct (Hy _ eq_refl) as [Hz (h & Hh & Hz')]. cbn [fst snd option_map] in *.
      assert (bc = true -> still k (fst z) (fun e => gz (0 :: e)) /\ snd z = NC k 0 /\ forall e, gz e = gz []) as HS0.
      { intros Hb. destruct (HS Hb _ eq_refl) as (c & E & Hc). cbn [fst snd] in E, Hc.
        rewrite nc_S in E. split; [exists c; rewrite E; auto|]. rewrite E. split; auto.
        intros e. rewrite !Hc. auto. }
      split.
      * apply (IH oc (fst x) (fun e => g (0 :: e)) (Some (fst z, fun e => gz (0 :: e))) bc); auto.
        -- intros Hb q [= <-]. apply HS0; auto.
        -- intros q [= <-]. exact Hz.
      * exists (fun e => fv oc (g (0 :: e)) (Some (gz (0 :: e))) (g' e) (Some (h e))).
        assert (near k (fun e => derivable_pt_lim (fun t => zv oc (g (t :: e)) (Some (gz (t :: e)))) 0
                   (fv oc (g (0 :: e)) (Some (gz (0 :: e))) (g' e) (Some (h e))))) as HN.
        { apply (near_deriv k oc g g' (Some (gz, h)) bc); auto.
          - intros q [= <-]. exact Hh.
          - apply (dom_near k oc (fst x) (fun e => g (0 :: e)) (Some (fst z, fun e => gz (0 :: e))) bc); auto.
            + intros q [= <-]. exact Hz.
            + intros Hb q [= <-]. apply HS0; auto.
          - intros Hb q [= <-]. exists (gz []). apply HS0; auto. }
        split; [exact HN|].
        apply (k_rule k IH oc (fst x) (fun e => g (0 :: e)) (snd x) g'
                 (Some (fst z, fun e => gz (0 :: e))) (Some (snd z, h)) bc); auto.
        -- destruct x, z. exact HD.
        -- intros Hb. destruct (HS0 Hb) as (S1 & S2 & S3). split.
           ++ intros q [= <-]. exact S1.
           ++ intros q [= <-]. split; [exact S2|]. cbn [snd].
              eapply near_imp; [|apply Hh]. cbn. intros e He.
              apply (uniqueness_limite (fun t => gz (t :: e)) 0); auto.
              eapply d_ext_near; [|apply (derivable_pt_lim_const (gz []))]. exists 1. split; [lra|].
              intros t _. rewrite (S3 (t :: e)). reflexivity.
        -- intros q [= <-]. exact Hz.
        -- intros q [= <-]. exact Hz'.
    + cbn [option_map] in *. split.
      * apply (IH oc (fst x) (fun e => g (0 :: e)) None bc); auto; discriminate.
      * exists (fun e => fv oc (g (0 :: e)) None (g' e) None). split.
        -- apply (near_deriv k oc g g' None bc); auto; try discriminate.
           apply (dom_near k oc (fst x) (fun e => g (0 :: e)) None bc); auto; discriminate.
        -- apply (k_rule k IH oc (fst x) (fun e => g (0 :: e)) (snd x) g' None None bc); auto; try discriminate.
           intros _. split; discriminate.
Qed.
