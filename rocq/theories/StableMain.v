(** The piecewise linearisation: quadratic error, and stability in the base point. *)
From Coq Require Import Reals Lra List Arith ZArith Bool Lia.
From Verif Require Import Base Float Operation Tape AContext Methods Function Spec Param TapeFacts
  Instances FunctionFacts ReplayFacts ApiFacts3 Replay2 RealInst Approx Smooth DerivSpec DerivFacts
  StableSpec Stable.
Import ListNotations.
Open Scope R_scope.

Notation T3 := (list R * list R * list R)%type.

(** distance over the first [k] components *)
Definition dk (k : nat) (x y : list R) : R := nrm1 (map (fun i => nth i x 0 - nth i y 0) (seq 0 k)).

Lemma vdiff_seq : forall x y, length x = length y ->
  vdiff x y = map (fun i => nth i x 0 - nth i y 0) (seq 0 (length x)).
Proof.
  induction x as [|a x IH]; intros [|b y] L; cbn in L; try discriminate; auto.
  unfold vdiff in *. cbn [combine map length seq nth fst snd]. f_equal.
  rewrite IH by lia. rewrite <- seq_shift, map_map. reflexivity.
Qed.

Lemma dist1_dk x y : length x = length y -> dist1 x y = dk (length x) x y.
Proof. intros L. unfold dist1, dk. rewrite vdiff_seq by auto. reflexivity. Qed.

Lemma dk_pos k x y : 0 <= dk k x y.
Proof. apply nrm1_pos. Qed.

Lemma nrm1_map_le {A} (f g : A -> R) l : (forall i, Rabs (f i) <= Rabs (g i)) ->
  nrm1 (map f l) <= nrm1 (map g l).
Proof. intros H. induction l; cbn; [lra|]. specialize (H a). lra. Qed.

Lemma dk_sym k x y : dk k x y = dk k y x.
Proof.
  unfold dk. apply Rle_antisym; apply nrm1_map_le; intros i; rewrite Rabs_minus_sym; lra.
Qed.

Lemma dk_tri k x y z : dk k x z <= dk k x y + dk k y z.
Proof.
  unfold dk. induction (seq 0 k) as [|i l IH]; cbn; [lra|].
  pose proof (Rabs_triang (nth i x 0 - nth i y 0) (nth i y 0 - nth i z 0)) as H.
  replace (nth i x 0 - nth i y 0 + (nth i y 0 - nth i z 0)) with (nth i x 0 - nth i z 0) in H by lra.
  lra.
Qed.

Lemma dk_nth k x y i : (i < k)%nat -> Rabs (nth i x 0 - nth i y 0) <= dk k x y.
Proof.
  intros H. unfold dk.
  assert (In i (seq 0 k)) as Hin by (apply in_seq; lia). revert Hin.
  induction (seq 0 k) as [|j l IH]; [intros []|]. intros [Hin|Hin]; cbn.
  - subst j. pose proof (nrm1_pos (map (fun i => nth i x 0 - nth i y 0) l)). lra.
  - specialize (IH Hin). pose proof (Rabs_pos (nth j x 0 - nth j y 0)). lra.
Qed.

Lemma dist1_self v : dist1 v v = 0.
Proof.
  unfold dist1, vdiff. induction v; cbn; auto. rewrite IHv.
  replace (a - a) with 0 by lra. rewrite Rabs_R0. lra.
Qed.

Section At.
Context (x : list R).
Notation k := (length x).
Definition t_n (t : T3) : R := dk k (fst (fst t)) (snd (fst t)).
Definition t_m1 (t : T3) : R := dk k (snd t) (fst (fst t)).
Definition t_m2 (t : T3) : R := dk k (snd t) (snd (fst t)).
Definition t_sz (t : T3) : R :=
  dk k (fst (fst t)) x + dk k (snd (fst t)) x + dk k (snd t) x.

Lemma t_n_pos t : 0 <= t_n t. Proof. apply dk_pos. Qed.
Lemma t_m1_pos t : 0 <= t_m1 t. Proof. apply dk_pos. Qed.
Lemma t_m2_pos t : 0 <= t_m2 t. Proof. apply dk_pos. Qed.
Lemma t_sz_pos t : 0 <= t_sz t.
Proof.
  unfold t_sz. pose proof (dk_pos k (fst (fst t)) x). pose proof (dk_pos k (snd (fst t)) x).
  pose proof (dk_pos k (snd t) x). lra.
Qed.
Lemma t_tri t : t_n t <= t_m1 t + t_m2 t.
Proof.
  unfold t_n, t_m1, t_m2. rewrite (dk_sym k (snd t) (fst (fst t))). apply dk_tri.
Qed.
Lemma t_m1_sz t : t_m1 t <= t_sz t.
Proof.
  unfold t_sz, t_m1. pose proof (dk_tri k (snd t) x (fst (fst t))) as H.
  rewrite (dk_sym k x (fst (fst t))) in H. pose proof (dk_pos k (snd (fst t)) x). lra.
Qed.
Lemma t_m2_sz t : t_m2 t <= t_sz t.
Proof.
  unfold t_sz, t_m2. pose proof (dk_tri k (snd t) x (snd (fst t))) as H.
  rewrite (dk_sym k x (snd (fst t))) in H. pose proof (dk_pos k (fst (fst t)) x). lra.
Qed.

(** the inputs as a family *)
Definition fam5 : list (V5 (T := T3)) :=
  map (fun i => (nth i x 0,
                 fun t : T3 => (nth i (fst (fst t)) 0, nth i (snd t) 0 - nth i (fst (fst t)) 0),
                 fun t : T3 => (nth i (snd (fst t)) 0, nth i (snd t) 0 - nth i (snd (fst t)) 0)))
    (seq 0 k).

Lemma list_seq : forall l : list R, map (fun i => nth i l 0) (seq 0 (length l)) = l.
Proof.
  induction l as [|a l IH]; auto. cbn [length seq map nth]. f_equal.
  rewrite <- seq_shift, map_map. exact IH.
Qed.

Lemma fam5_a : map v5a fam5 = x.
Proof. unfold fam5. rewrite map_map. unfold v5a; cbn. apply list_seq. Qed.

Lemma combine_map {A B C} (f : A -> B) (g : A -> C) l :
  combine (map f l) (map g l) = map (fun i => (f i, g i)) l.
Proof. induction l; cbn; congruence. Qed.

Lemma fam5_p x1 x2 v : length x1 = k -> length v = k ->
  map (fun z => v5p z (x1, x2, v)) fam5 = combine x1 (vdiff v x1).
Proof.
  intros L1 Lv. unfold fam5. rewrite map_map. unfold v5p; cbn [fst snd].
  rewrite vdiff_seq by congruence. rewrite Lv.
  transitivity (combine (map (fun i => nth i x1 0) (seq 0 k))
    (map (fun i => nth i v 0 - nth i x1 0) (seq 0 k))); [rewrite combine_map; reflexivity|].
  f_equal. rewrite <- L1. apply list_seq.
Qed.
Lemma fam5_q x1 x2 v : length x2 = k -> length v = k ->
  map (fun z => v5q z (x1, x2, v)) fam5 = combine x2 (vdiff v x2).
Proof.
  intros L1 Lv. unfold fam5. rewrite map_map. unfold v5q; cbn [fst snd].
  rewrite vdiff_seq by congruence. rewrite Lv.
  transitivity (combine (map (fun i => nth i x2 0) (seq 0 k))
    (map (fun i => nth i v 0 - nth i x2 0) (seq 0 k))); [rewrite combine_map; reflexivity|].
  f_equal. rewrite <- L1. apply list_seq.
Qed.

Lemma fam5_good : Forall (good5 t_sz t_n t_m1 t_m2) fam5.
Proof.
  unfold fam5. apply Forall_forall. intros z Hz. apply in_map_iff in Hz as (i & <- & Hi).
  apply in_seq in Hi as [_ Hi]. cbn in Hi.
  split; unfold v5a, v5p, v5q; cbn [fst snd].
  - exists 1. split; [lra|]. apply ev_all. intros t. rewrite Rmult_1_l.
    eapply Rle_trans; [apply (dk_nth k _ _ _ Hi)|]. unfold t_sz.
    pose proof (dk_pos k (snd (fst t)) x). pose proof (dk_pos k (snd t) x). lra.
  - exists 1. split; [lra|]. apply ev_all. intros t. rewrite Rmult_1_l.
    eapply Rle_trans; [apply (dk_nth k _ _ _ Hi)|]. unfold t_sz.
    pose proof (dk_pos k (fst (fst t)) x). pose proof (dk_pos k (snd t) x). lra.
  - exists 1. split; [lra|]. apply ev_all. intros t. rewrite Rmult_1_l. apply dk_nth; auto.
  - exists 1. split; [lra|]. apply ev_all. intros t. rewrite Rmult_1_l. apply dk_nth; auto.
  - exists 1. split; [lra|]. apply ev_all. intros t. rewrite Rmult_1_l. apply dk_nth; auto.
  - apply (O_ext _ _ (fun _ => 0)).
    + apply ev_all. intros t. lra.
    + apply O_0. intros t. apply (prod_pos t_n t_m1 t_m2 t_n_pos t_m1_pos t_m2_pos).
Qed.

(** Near the point the function is one straight-line program. *)
Lemma near_path f y : v_eval Rops f x = Ok y -> same_branches_near f x ->
  exists d, 0 < d /\ forall x1, length x1 = k -> dist1 x1 x < d ->
    resolve_f Rops f x1 = resolve_f Rops f x.
Proof.
  intros E [HS|(d & Hd & HB)].
  - exists 1. split; [lra|]. intros x1 L _.
    rewrite !(resolve_f_id Rops f HS); auto; [congruence|].
    intros q Eq. destruct (straight_shape Rops f x1 x HS L) as [(y1 & y2 & E1 & _)|(p & _ & E2)];
      congruence.
  - exists d. split; auto. intros x1 L Hx1.
    specialize (HB (vdiff x1 x)).
    assert (length (vdiff x1 x) = k) as Lv by (unfold vdiff; rewrite map_length, combine_length; lia).
    assert (vadd x (vdiff x1 x) = x1) as Ex.
    { clear -L. revert x1 L. induction x as [|a l IH]; intros [|b x1] L; cbn in L; try discriminate; auto.
      unfold vadd, vdiff in *. cbn [combine map fst snd]. f_equal; [lra|]. apply IH. lia. }
    rewrite Ex in HB. symmetry. apply agree_f_path; auto.
Qed.

Lemma d_eval_resolve f (env : list (R * R)) :
  d_eval Rops f env = d_eval Rops (resolve_f Rops f (map fst env)) env.
Proof.
  unfold d_eval. rewrite (feval_resolve Rops (d_fop Rops) (d_cst Rops) fst); auto.
  intros oc a y s r s' _. unfold d_fop, mbind, mlift.
  destruct (zero_order_value Rops oc (fst a) (option_map fst y)) as [v|]; [|discriminate].
  destruct (first_order_value Rops oc _ _ _ _) as [e|]; [|discriminate]. intros [= <- <-]. reflexivity.
Qed.

Theorem near_stable f y0 : v_eval Rops f x = Ok y0 -> regular f x -> same_branches_near f x ->
  exists K d, 0 <= K /\ 0 < d /\ forall x1 x2 v,
    length x1 = k -> length x2 = k -> length v = k ->
    dist1 x1 x < d -> dist1 x2 x < d -> dist1 v x < d ->
    exists z1 z2, d_eval Rops f (combine x1 (vdiff v x1)) = Ok z1 /\
      d_eval Rops f (combine x2 (vdiff v x2)) = Ok z2 /\
      length z1 = length y0 /\ length z2 = length y0 /\
      forall j, (j < length y0)%nat ->
        Rabs (nth j (map fst z1) 0 - nth j (map fst z2) 0) <= K * dist1 x1 x2 /\
        Rabs (nth j (map snd z1) 0) <= K * dist1 v x1 /\
        Rabs ((nth j (map fst z1) 0 + nth j (map snd z1) 0)
              - (nth j (map fst z2) 0 + nth j (map snd z2) 0))
          <= K * (dist1 x1 x2 * (dist1 v x1 + dist1 v x2)).
Proof.
  intros Ey HR HB.
  destruct (near_path f y0 Ey HB) as (d1 & Hd1 & HP).
  assert (exists zs, feval Rops e_fop e_cst v5a f fam5 tt = Ok (zs, tt) /\ map v5a zs = y0)
    as (zs & Ez & Ezy).
  { pose proof (e_proj (resolve_f Rops f x) v5p fam5 (x, x, x) (or_introl eq_refl)
                  (resolve_f_straight Rops f x)) as D.
    rewrite (feval_resolve Rops e_fop e_cst v5a e_fop_val (fun c => eq_refl)), fam5_a.
    destruct (feval Rops e_fop e_cst v5a (resolve_f Rops f x) fam5 tt) as [[zs []]|p] eqn:E.
    - exists zs. split; auto.
      pose proof (feval_values Rops e_fop e_cst v5a e_fop_val (fun c => eq_refl) (resolve_f Rops f x)
                    fam5 tt zs tt E) as V.
      rewrite fam5_a, <- v_eval_resolve in V. congruence.
    - rewrite fam5_p in D by auto.
      pose proof (d_eval_values Rops (resolve_f Rops f x) (combine x (vdiff x x))) as DV.
      rewrite D in DV. cbn [bind] in DV.
      rewrite map_fst_combine in DV.
      + rewrite <- v_eval_resolve in DV. congruence.
      + unfold vdiff. rewrite map_length, combine_length. lia. }
  pose proof (family_near2 t_sz t_sz_pos t_n t_m1 t_m2 t_n_pos t_m1_pos t_m2_pos t_tri
                t_m1_sz t_m2_sz f x fam5 HR fam5_a fam5_good zs Ez) as G.
  destruct (vec_near2 t_sz t_n t_m1 t_m2 t_n_pos t_m1_pos t_m2_pos zs G)
    as (K & d2 & HK & Hd2 & HV).
  assert (0 < d2 / 3) as Hd3 by lra.
  exists K, (Rmin d1 (d2 / 3)). split; auto. split; [apply Rmin_pos; auto|].
  intros x1 x2 v L1 L2 Lv H1 H2 H3.
  pose proof (Rmin_l d1 (d2 / 3)) as M1. pose proof (Rmin_r d1 (d2 / 3)) as M2.
  set (t := (x1, x2, v)).
  assert (t_sz t < d2) as Ht.
  { unfold t_sz, t. cbn [fst snd].
    rewrite !dist1_dk in H1, H2, H3 by congruence. rewrite L1 in H1. rewrite L2 in H2.
    rewrite Lv in H3. lra. }
  exists (map (fun z => v5p z t) zs), (map (fun z => v5q z t) zs).
  assert (forall l, length l = k -> length (vdiff v l) = k) as Lvd.
  { intros l Ll. unfold vdiff. rewrite map_length, combine_length. lia. }
  rewrite (feval_resolve Rops e_fop e_cst v5a e_fop_val (fun c => eq_refl)), fam5_a in Ez.
  split.
  { rewrite d_eval_resolve, map_fst_combine by (rewrite Lvd; auto).
    rewrite (HP x1) by (auto; lra).
    pose proof (e_proj (resolve_f Rops f x) v5p fam5 t (or_introl eq_refl)
                  (resolve_f_straight Rops f x)) as D.
    rewrite Ez in D. unfold t in D. rewrite fam5_p in D by auto. exact D. }
  split.
  { rewrite d_eval_resolve, map_fst_combine by (rewrite Lvd; auto).
    rewrite (HP x2) by (auto; lra).
    pose proof (e_proj (resolve_f Rops f x) v5q fam5 t (or_intror eq_refl)
                  (resolve_f_straight Rops f x)) as D.
    rewrite Ez in D. unfold t in D. rewrite fam5_q in D by auto. exact D. }
  rewrite <- Ezy, !map_length. split; auto. split; auto.
  intros j Hj. rewrite !map_map.
  destruct (nth_error zs j) as [z|] eqn:En; [|apply nth_error_None in En; lia].
  assert (forall g : V5 -> R, nth j (map g zs) 0 = g z) as Hn.
  { intros g. apply nth_error_nth. rewrite nth_error_map, En. auto. }
  rewrite !Hn. rewrite !dist1_dk by congruence. rewrite L1, Lv.
  apply (HV t Ht z). eapply nth_error_In; eauto.
Qed.

End At.

(** The tape's piecewise linear model, from the tapeless one. *)
Lemma tape_model f x1 w1 z v :
  length v = length x1 -> d_eval Rops f (combine x1 (vdiff v x1)) = Ok z ->
  exists t1 w1', fn_tape Rops f x1 w1 = Ok (t1, w1') /\ tape_y t1 = Ok (map fst z) /\
    tape_forward Rops t1 (vdiff v x1) = Ok (map snd z).
Proof.
  intros L D.
  assert (length (vdiff v x1) = length x1) as Lv by (unfold vdiff; rewrite map_length, combine_length; lia).
  pose proof (d_eval_values Rops f (combine x1 (vdiff v x1))) as DV. rewrite D in DV. cbn [bind] in DV.
  rewrite map_fst_combine in DV by auto.
  pose proof (fn_tape_total Rops f x1 w1) as HT. rewrite DV in HT.
  destruct HT as (t1 & w1' & HT). exists t1, w1'. split; auto.
  destruct (fn_tape_fresh Rops f x1 w1 t1 w1' HT) as (_ & (y & Ey & Ty & _) & _ & _).
  split; [congruence|].
  destruct (forward_tapeless Rops f x1 w1 t1 w1' (vdiff v x1) HT Lv (R_const_tangents f x1 _))
    as (yd & D' & Ef). rewrite D in D'. injection D' as <-. exact Ef.
Qed.

(** Two tapes recorded near [x] give models that differ, at a point [v], by the product of the
    distance of the base points and their distances from [v]. *)
Theorem linearisation_stable f x w t w' :
  fn_tape Rops f x w = Ok (t, w') -> regular f x -> same_branches_near f x ->
  exists K d, 0 <= K /\ 0 < d /\ forall x1 x2 v,
    length x1 = length x -> length x2 = length x -> length v = length x ->
    dist1 x1 x < d -> dist1 x2 x < d -> dist1 v x < d -> forall w1 w2,
    exists t1 w1' t2 w2' y1 y2 dy1 dy2,
      fn_tape Rops f x1 w1 = Ok (t1, w1') /\ fn_tape Rops f x2 w2 = Ok (t2, w2') /\
      tape_y t1 = Ok y1 /\ tape_y t2 = Ok y2 /\
      tape_forward Rops t1 (vdiff v x1) = Ok dy1 /\ tape_forward Rops t2 (vdiff v x2) = Ok dy2 /\
      length y1 = num_deps t /\ length y2 = num_deps t /\
      length dy1 = num_deps t /\ length dy2 = num_deps t /\
      forall j, (j < num_deps t)%nat ->
        Rabs ((nth j y1 0 + nth j dy1 0) - (nth j y2 0 + nth j dy2 0))
          <= K * (dist1 x1 x2 * (dist1 v x1 + dist1 v x2)).
Proof.
  intros HT HR HB.
  destruct (fn_tape_fresh Rops f x w t w' HT) as (_ & (y & Ey & Ty & _) & _ & _).
  assert (length y = num_deps t) as Ly by (apply gather_length in Ty; exact Ty).
  destruct (near_stable x f y Ey HR HB) as (K & d & HK & Hd & H).
  exists K, d. split; auto. split; auto. intros x1 x2 v L1 L2 Lv H1 H2 H3 w1 w2.
  destruct (H x1 x2 v L1 L2 Lv H1 H2 H3) as (z1 & z2 & D1 & D2 & Z1 & Z2 & HJ).
  destruct (tape_model f x1 w1 z1 v ltac:(congruence) D1) as (t1 & w1' & T1 & Y1 & F1).
  destruct (tape_model f x2 w2 z2 v ltac:(congruence) D2) as (t2 & w2' & T2 & Y2 & F2).
  exists t1, w1', t2, w2', (map fst z1), (map fst z2), (map snd z1), (map snd z2).
  rewrite !map_length. repeat (split; [solve [auto; congruence]|]).
  intros j Hj. apply HJ. lia.
Qed.

(** The error of the model is quadratic, uniformly near [x]. *)
Theorem quadratic_error f x w t w' :
  fn_tape Rops f x w = Ok (t, w') -> regular f x -> same_branches_near f x ->
  exists K d, 0 <= K /\ 0 < d /\ forall x1 v,
    length x1 = length x -> length v = length x -> dist1 x1 x < d -> dist1 v x < d -> forall w1,
    exists t1 w1' y1 dy yv,
      fn_tape Rops f x1 w1 = Ok (t1, w1') /\ tape_y t1 = Ok y1 /\
      tape_forward Rops t1 (vdiff v x1) = Ok dy /\
      (forall w2, eval_float Rops f v w2 = Ok (yv, w2)) /\
      length y1 = num_deps t /\ length dy = num_deps t /\ length yv = num_deps t /\
      forall j, (j < num_deps t)%nat ->
        Rabs (nth j yv 0 - nth j y1 0 - nth j dy 0) <= K * (dist1 v x1 * dist1 v x1) /\
        Rabs (nth j yv 0 - nth j y1 0) <= K * dist1 v x1 /\
        Rabs (nth j dy 0) <= K * dist1 v x1.
Proof.
  intros HT HR HB.
  destruct (fn_tape_fresh Rops f x w t w' HT) as (_ & (y & Ey & Ty & _) & _ & _).
  assert (length y = num_deps t) as Ly by (apply gather_length in Ty; exact Ty).
  destruct (near_stable x f y Ey HR HB) as (K & d & HK & Hd & H).
  exists K, d. split; auto. split; auto. intros x1 v L1 Lv H1 H3 w1.
  destruct (H x1 v v L1 Lv Lv H1 H3 H3) as (z1 & z2 & D1 & D2 & Z1 & Z2 & HJ).
  destruct (H v v v Lv Lv Lv H3 H3 H3) as (zv & zv2 & Dv & _ & Zv & _ & HJv).
  rewrite D2 in Dv. injection Dv as <-.
  destruct (tape_model f x1 w1 z1 v ltac:(congruence) D1) as (t1 & w1' & T1 & Y1 & F1).
  assert (dist1 v v = 0) as E0.
  { apply dist1_self. }
  assert (forall j, (j < length y)%nat -> nth j (map snd z2) 0 = 0) as Hz.
  { intros j Hj. destruct (HJv j Hj) as (_ & A & _). rewrite E0, Rmult_0_r in A.
    pose proof (Rabs_pos (nth j (map snd z2) 0)) as B.
    destruct (Req_dec (nth j (map snd z2) 0) 0) as [|N]; auto. apply Rabs_no_R0 in N. lra. }
  exists t1, w1', (map fst z1), (map snd z1), (map fst z2).
  assert (dist1 x1 v = dist1 v x1) as Es.
  { rewrite !dist1_dk by congruence. rewrite dk_sym. congruence. }
  rewrite !map_length. split; auto. split; auto. split; auto. split.
  { intros w2. rewrite eval_float_v.
    pose proof (d_eval_values Rops f (combine v (vdiff v v))) as DV. rewrite D2 in DV. cbn [bind] in DV.
    rewrite map_fst_combine in DV by (unfold vdiff; rewrite map_length, combine_length; lia).
    rewrite DV. reflexivity. }
  split; [congruence|]. split; [congruence|]. split; [congruence|]. rewrite <- Ly. intros j Hj.
  destruct (HJ j Hj) as (A & B & C). rewrite (Hz j Hj), E0, Es in C. rewrite Es in A. split; [|split; auto].
  - rewrite Rabs_minus_sym in C. replace (K * (dist1 v x1 * dist1 v x1)) with
      (K * (dist1 v x1 * (dist1 v x1 + 0))) by ring.
    eapply Rle_trans; [|apply C]. apply Req_le. f_equal. lra.
  - rewrite Rabs_minus_sym. auto.
Qed.
