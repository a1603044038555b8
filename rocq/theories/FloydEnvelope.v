(** The gradient of the shortest-path example and the derivative of what it minimises. *)
From Coq Require Import Reals Lra List Arith ZArith NArith Bool Lia.
From Verif Require Import Base Float Operation Tape AContext Methods Function Spec TapeFacts
  RealInst DerivSpec Param Instances FunctionFacts DerivFacts LinearFacts Matrix MatrixFacts Jacobian JacobianFacts
  AnfSpec RVec Checkpoint CheckSpec GenJac GenSpec
  StraightSpec MethodSpec Build BuildFacts PairBuild
  Programs FloydSpec FloydFacts FloydMain FloydPair FloydGraph FloydGrad.
Import ListNotations.
Open Scope R_scope.

(** ** A traffic light *)
Lemma small_product g c s : 0 < g -> Rabs s < g / (Rabs c + 1) -> Rabs (s * c) < g.
Proof.
  intros Hg Hs. pose proof (Rabs_pos c) as Hc. pose proof (Rabs_pos s) as Hs0. rewrite Rabs_mult.
  assert (Rabs s * (Rabs c + 1) < g) as H.
  { apply Rmult_lt_reg_r with (/ (Rabs c + 1)); [apply Rinv_0_lt_compat; lra|].
    rewrite Rmult_assoc, Rinv_r by lra. unfold Rdiv in Hs. lra. }
  nra.
Qed.

Lemma share_local p c top : p <> 1 / 100 -> p <> 99 / 100 ->
  exists r, 0 < r /\ forall s, - r < s < r -> share (p + s * c) top = share p top + s * snd (pshare (p, c) top).
Proof.
  intros H1 H2.
  assert (exists r, 0 < r /\ forall s, - r < s < r ->
    Rmin (Rmax (p + s * c) (1 / 100)) (99 / 100) = Rmin (Rmax p (1 / 100)) (99 / 100) + s * snd (pmin (pmax (p, c) (1 / 100, 0)) (99 / 100, 0))) as (r & Hr & H).
  { set (g := Rmin (Rabs (p - 1 / 100)) (Rabs (p - 99 / 100))).
    assert (0 < g) as Hg by (unfold g; apply Rmin_glb_lt; apply Rabs_pos_lt; lra).
    exists (g / (Rabs c + 1)). split; [apply Rdiv_lt_0_compat; [auto|pose proof (Rabs_pos c); lra]|].
    intros s Hs. assert (Rabs (s * c) < g) as Hsc by (apply small_product; [auto|apply Rabs_def1; lra]).
    assert (g <= Rabs (p - 1 / 100)) as G1 by apply Rmin_l. assert (g <= Rabs (p - 99 / 100)) as G2 by apply Rmin_r.
    apply Rabs_def2 in Hsc. unfold Rabs in G1, G2. destruct (Rcase_abs _) in G1; destruct (Rcase_abs _) in G2.
    - rewrite !Rmax_right by lra. rewrite !Rmin_left by lra. unfold pmin, pmax. cbn [fst snd].
      destruct (Rlt_dec (1 / 100) p); [lra|]. cbn [fst snd]. destruct (Rlt_dec (99 / 100) (1 / 100)); [lra|]. cbn. lra.
    - lra.
    - rewrite !Rmax_left by lra. rewrite !Rmin_left by lra. unfold pmin, pmax. cbn [fst snd].
      destruct (Rlt_dec (1 / 100) p); [|lra]. cbn [fst snd]. destruct (Rlt_dec (99 / 100) p); [lra|]. cbn. lra.
    - rewrite !Rmax_left by lra. rewrite !Rmin_right by lra. unfold pmin, pmax. cbn [fst snd].
      destruct (Rlt_dec (1 / 100) p); [|lra]. cbn [fst snd]. destruct (Rlt_dec (99 / 100) p); [|lra]. cbn. lra. }
  exists r. split; [auto|]. intros s Hs. unfold share, pshare. rewrite (H s Hs). destruct top; [auto|]. cbn [pbin snd]. ring.
Qed.

Lemma time_deriv p c top : p <> 1 / 100 -> p <> 99 / 100 ->
  derivable_pt_lim (fun s => 1 + 1 / share (p + s * c) top) 0 (snd (ptime (p, c) top)).
Proof.
  intros H1 H2. destruct (share_local p c top H1 H2) as (r & Hr & H).
  set (a := share p top) in *. set (b := snd (pshare (p, c) top)) in *.
  assert (0 < a) as Ha by apply share_pos.
  apply (derivable_pt_lim_locally_ext (fun s => 1 + 1 / (a + s * b)) _ 0 (- r) r); [lra|intros z Hz; now rewrite H|].
  assert (snd (ptime (p, c) top) = 0 + (0 * (a + 0 * b) - (0 + (1 * b + 0 * 0)) * 1) / Rsqr (a + 0 * b)) as ->.
  { unfold ptime. cbn [pbin snd fst]. fold b. rewrite pshare_fst. cbn [fst]. fold a. unfold Rsqr.
    replace (a + 0 * b) with a by ring. assert (powerRZ a 2 = a * a) as -> by (rewrite <- pow_powerRZ with (n := 2%nat); cbn [pow]; ring). field. lra. }
  apply derivable_pt_lim_plus; [apply derivable_pt_lim_const|].
  apply (derivable_pt_lim_div (fun _ => 1) (fun s => a + s * b)).
  - apply derivable_pt_lim_const.
  - apply derivable_pt_lim_plus; [apply derivable_pt_lim_const|].
    apply (derivable_pt_lim_mult (fun s => s) (fun _ => b)); [apply derivable_pt_lim_id|apply derivable_pt_lim_const].
  - rewrite Rmult_0_l, Rplus_0_r. lra.
Qed.

(** ** The street map along a line *)
Definition off_clamps (params : list R) : Prop := Forall (fun p => p <> 1 / 100 /\ p <> 99 / 100) params.

Lemma nth_line params v s l : length v = length params -> (l < length params)%nat ->
  nth l (vadd params (vscal s v)) 0 = nth l params 0 + s * nth l v 0.
Proof.
  intros L Hl. rewrite nth_vadd by (unfold vscal; now rewrite map_length).
  f_equal. unfold vscal. rewrite <- (Rmult_0_r s) at 1. apply map_nth.
Qed.

Lemma street_deriv n inf params v (edges : list edge) i j : length v = length params -> off_clamps params ->
  Forall (street_ok n (length params)) edges ->
  derivable_pt_lim (fun s => street inf (streets (vadd params (vscal s v)) edges) i j) 0
    (snd (pstreet inf (pstreets (combine params v) edges) i j)).
Proof.
  intros L Hc He. unfold streets, pstreets.
  induction edges as [|[[a b] [l top]] edges IH] using rev_ind; cbn [map rev].
  - cbn. destruct (i =? j)%nat; apply derivable_pt_lim_const.
  - apply Forall_app in He as [He1 He2]. rewrite map_app, rev_app_distr. cbn [map rev app pstreet].
    apply Forall_inv in He2 as (Ha & Hb & Hl).
    eapply (derivable_pt_lim_locally_ext (fun s => if ((i =? a) && (j =? b) || (i =? b) && (j =? a))%nat then 1 + 1 / share (nth l params 0 + s * nth l v 0) top
       else street inf (streets (vadd params (vscal s v)) edges) i j) _ 0 (-1) 1); [lra| |].
    { intros z _. rewrite map_app, rev_app_distr. cbn [map rev app street]. destruct (_ || _); [|reflexivity].
      unfold travel_time. rewrite nth_line by auto. reflexivity. }
    destruct ((i =? a) && (j =? b) || (i =? b) && (j =? a))%nat; [|now apply IH].
    rewrite combine_nth by auto. unfold off_clamps in Hc. rewrite Forall_forall in Hc.
    destruct (Hc (nth l params 0) (nth_In _ _ Hl)). now apply time_deriv.
Qed.

(** ** Walks that stay shortest walks' rivals *)
Lemma rivals n (W : R -> nat -> nat -> R) pairs : Forall (fun uv => (fst uv < n)%nat /\ (snd uv < n)%nat) pairs ->
  forall m k x E (Phi : nat -> nat -> R -> R), (k + m <= n)%nat -> length x = (n * n)%nat -> nonneg_at n x ->
  (forall i j, (i < n)%nat -> (j < n)%nat -> Phi i j 0 = at_ n x i j /\ derivable_pt_lim (Phi i j) 0 (E i j) /\
     forall s, walk n (W s) i j (Phi i j s)) ->
  exists Psi : nat -> nat -> R -> R,
    (forall i j, (i < n)%nat -> (j < n)%nat ->
       Psi i j 0 = at_ n (fold_left (fun v k => stepv n k v) (seq k m) x) i j /\ forall s, walk n (W s) i j (Psi i j s)) /\
    derivable_pt_lim (fun s => sumsq (fun i j => Psi i j s) pairs) 0 (along n pairs m k x E).
Proof.
  intros HP. induction m as [|m IH]; intros k x E Phi Hk L Hx H.
  - exists Phi. split; [intros i j Hi Hj; split; apply H; auto|]. cbn [along]. unfold sumsq, pform.
    assert (forall r l dl, derivable_pt_lim r 0 dl -> Forall (fun uv => (fst uv < n)%nat /\ (snd uv < n)%nat) l ->
      derivable_pt_lim (fun s => fold_left (fun r uv => r + Phi (fst uv) (snd uv) s * Phi (fst uv) (snd uv) s) l (r s)) 0
        (fold_left (fun r uv => r + (E (fst uv) (snd uv) * at_ n x (fst uv) (snd uv) + at_ n x (fst uv) (snd uv) * E (fst uv) (snd uv))) l dl)) as G.
    { clear -H. intros r l. revert r. induction l as [|[u v] l IH]; intros r dl Hr HP; cbn [fold_left fst snd]; [exact Hr|].
      inversion HP as [|? ? [Hu Hv] HP']; subst. cbn [fst snd] in *. destruct (H u v Hu Hv) as (<- & D & _).
      apply (IH (fun s => r s + Phi u v s * Phi u v s)); [|auto].
      apply derivable_pt_lim_plus; [auto|]. now apply (derivable_pt_lim_mult (Phi u v) (Phi u v)). }
    apply (G (fun _ => 0)); [apply derivable_pt_lim_const|auto].
  - cbn [along seq fold_left]. assert (k < n)%nat as Hkn by lia.
    apply (IH (S k) (stepv n k x) (sel (at_ n x) k E)
      (fun i j => if Rlt_dec (at_ n x i k + at_ n x k j) (at_ n x i j) then (fun s => Phi i k s + Phi k j s) else Phi i j));
      [lia|now rewrite stepv_len|now apply nonneg_step|].
    intros i j Hi Hj. rewrite stepv_spec by auto. unfold sel.
    destruct (H i j Hi Hj) as (A1 & A2 & A3). destruct (H i k Hi Hkn) as (B1 & B2 & B3). destruct (H k j Hkn Hj) as (C1 & C2 & C3).
    destruct (Rlt_dec _ _) as [Hlt|Hlt].
    + rewrite Rmin_right by lra. split; [lra|]. split; [now apply derivable_pt_lim_plus|].
      intros s. eapply walk_app; eauto.
    + rewrite Rmin_left by lra. auto.
Qed.

Lemma sumsq_ext n d d' pairs : Forall (fun uv => (fst uv < n)%nat /\ (snd uv < n)%nat) pairs ->
  (forall i j, (i < n)%nat -> (j < n)%nat -> d i j = d' i j) -> sumsq d pairs = sumsq d' pairs.
Proof.
  intros HP H. unfold sumsq. generalize 0 as r. induction HP as [|[u v] l [Hu Hv] HP IH]; intros r; cbn; auto.
  rewrite H by auto. apply IH.
Qed.
Lemma sumsq_le n d d' pairs : Forall (fun uv => (fst uv < n)%nat /\ (snd uv < n)%nat) pairs ->
  (forall i j, (i < n)%nat -> (j < n)%nat -> 0 <= d i j <= d' i j) -> sumsq d pairs <= sumsq d' pairs.
Proof.
  intros HP H. unfold sumsq. generalize (Rle_refl 0). generalize 0 at 1 3 as r. generalize 0 as r'.
  induction HP as [|[u v] l [Hu Hv] HP IH]; intros r' r Hr; cbn; [auto|].
  apply IH. cbn in Hu, Hv. specialize (H u v Hu Hv). nra.
Qed.

Lemma walk_nonneg n W i j w : (forall i j, 0 <= W i j) -> walk n W i j w -> 0 <= w.
Proof. intros H. induction 1; auto. specialize (H i m). lra. Qed.

(** ** The derivative *)
Lemma along_is_derivative n nl inf edges exits params v (V : list R -> R) l :
  0 <= inf -> length params = nl -> length v = nl -> Forall (street_ok n nl) edges ->
  Forall (fun u => (u < n)%nat) exits -> off_clamps params ->
  (forall q w, length q = nl -> exists w', fw_value Rops n nl inf edges exits q w = Ok (V q, w')) ->
  derivable_pt_lim (fun s => V (vadd params (vscal s v))) 0 l ->
  along n (list_prod exits exits) n 0 (graphv n inf edges params)
    (fun i j => snd (pstreet inf (pstreets (combine params v) edges) i j)) = l.
Proof.
  intros Hi Lp Lv He Hex Hc HV HD. set (pairs := list_prod exits exits). set (x := graphv n inf edges params).
  pose proof (prod_lt n exits Hex) as HP. fold pairs in HP.
  assert (Forall (street_ok n (length params)) edges) as He' by now rewrite Lp.
  set (q := fun s => vadd params (vscal s v)).
  assert (forall s, length (q s) = nl) as Lq.
  { intros s. unfold q. rewrite vadd_len; unfold vscal; rewrite ?map_length; congruence. }
  set (W := fun s => street inf (streets (q s) edges)).
  assert (forall s i j, 0 <= W s i j) as HW by (intros; now apply street_nonneg).
  assert (q 0 = params) as Hq0.
  { apply nth_ext0; [now rewrite Lq|]. intros i Hl. rewrite Lq in Hl. unfold q. rewrite nth_line by (congruence || lia). ring. }
  assert (length x = (n * n)%nat) as Lx by apply graphv_len.
  assert (forall i j, (i < n)%nat -> (j < n)%nat -> at_ n x i j = W 0 i j) as HX.
  { intros i j Hi' Hj. unfold x, W. rewrite Hq0. now apply graphv_at. }
  assert (nonneg_at n x) as Hx by (intros i j Hi' Hj; rewrite HX by auto; apply HW).
  destruct (rivals n W pairs HP n 0 x (fun i j => snd (pstreet inf (pstreets (combine params v) edges) i j)) (fun i j s => W s i j))
    as (Psi & HPsi & DPsi); auto.
  { intros i j Hi' Hj. split; [now rewrite HX|]. split; [|intros s; now constructor].
    apply (street_deriv n); auto. congruence. }
  assert (forall s, V (q s) <= sumsq (fun i j => Psi i j s) pairs) as Hle.
  { intros s. destruct (fw_value_correct n nl inf edges exits (q s) world0) as (d & w' & Hd & Ev); auto.
    destruct (HV (q s) world0 (Lq s)) as (w2 & E2). rewrite E2 in Ev. injection Ev as -> _. apply (sumsq_le n); auto.
    intros i j Hi' Hj. destruct (Hd i j Hi' Hj) as [Hw Hmin]. split.
    - apply (walk_nonneg n (W s) i j); auto.
    - apply Hmin. now apply HPsi. }
  assert (V (q 0) = sumsq (fun i j => Psi i j 0) pairs) as Heq.
  { destruct (fw_value_correct n nl inf edges exits (q 0) world0) as (d & w' & Hd & Ev); auto.
    destruct (HV (q 0) world0 (Lq 0)) as (w2 & E2). rewrite E2 in Ev. injection Ev as -> _. apply (sumsq_ext n); auto.
    intros i j Hi' Hj. destruct (HPsi i j Hi' Hj) as [-> _].
    apply (shortest_unique n (W 0) i j); [now apply Hd|].
    apply (steps_shortest n (W 0) x); auto. apply nonneg_no_cycle. apply HW. }
  set (h := fun s => sumsq (fun i j => Psi i j s) pairs - V (q s)).
  assert (derivable_pt_lim h 0 (along n pairs n 0 x (fun i j => snd (pstreet inf (pstreets (combine params v) edges) i j)) - l)) as Dh.
  { apply derivable_pt_lim_minus; auto. }
  assert (pr : derivable_pt h 0) by (eexists; exact Dh).
  pose proof (deriv_minimum h (-1) 1 0 pr) as Hm.
  assert (derive_pt h 0 pr = 0) as H0.
  { apply Hm; try lra. intros s _ _. unfold h. specialize (Hle s). lra. }
  apply derive_pt_eq_0 with (pr := pr) in Dh. lra.
Qed.

(** The gradient is half the derivative. *)
Theorem fw_gradient_half red est n nl inf edges exits params w (V : list R -> R) :
  rayon red -> accurate est (Z.of_nat (n + 2) + 1) -> (Z.of_nat (n + 2) + 1 <= 2 ^ 32)%Z -> (2 <= n)%nat ->
  0 <= inf -> length params = nl -> Forall (street_ok n nl) edges ->
  Forall (fun e : edge => fst (fst e) <> snd (fst e)) edges -> Forall (fun u => (u < n)%nat) exits -> off_clamps params ->
  (forall q w, length q = nl -> exists w', fw_value Rops n nl inf edges exits q w = Ok (V q, w')) ->
  exists g w', fw_gradient Rops red est n nl inf edges exits params w = Ok (g, w') /\ shape g nl 1 /\
    forall v l, length v = nl -> derivable_pt_lim (fun s => V (vadd params (vscal s v))) 0 l -> dot (col g 0) v = l / 2.
Proof.
  intros HR HA HN Hn Hi Lp He Hd Hex Hc HV.
  destruct (fw_gradient_along red est n nl inf edges exits params w HR HA HN Hn Hi Lp He Hd Hex) as (g & w' & E & S & H).
  exists g, w'. split; [auto|]. split; [auto|]. intros v l Lv D. rewrite H by auto.
  rewrite (along_is_derivative n nl inf edges exits params v V l); auto. lra.
Qed.

(** Entry by entry. *)
Corollary fw_gradient_entry red est n nl inf edges exits params w (V : list R -> R) :
  rayon red -> accurate est (Z.of_nat (n + 2) + 1) -> (Z.of_nat (n + 2) + 1 <= 2 ^ 32)%Z -> (2 <= n)%nat ->
  0 <= inf -> length params = nl -> Forall (street_ok n nl) edges ->
  Forall (fun e : edge => fst (fst e) <> snd (fst e)) edges -> Forall (fun u => (u < n)%nat) exits -> off_clamps params ->
  (forall q w, length q = nl -> exists w', fw_value Rops n nl inf edges exits q w = Ok (V q, w')) ->
  exists g w', fw_gradient Rops red est n nl inf edges exits params w = Ok (g, w') /\ shape g nl 1 /\
    forall j l, (j < nl)%nat -> derivable_pt_lim (fun s => V (update params j (nth j params 0 + s))) 0 l ->
      ent Rops g j 0 = l / 2.
Proof.
  intros HR HA HN Hn Hi Lp He Hd Hex Hc HV.
  destruct (fw_gradient_half red est n nl inf edges exits params w V HR HA HN Hn Hi Lp He Hd Hex Hc HV) as (g & w' & E & S & H).
  exists g, w'. split; [auto|]. split; [auto|]. intros j l Hj D.
  rewrite <- nth_col. rewrite <- (dot_unit_r nl (col g 0) j); auto.
  2:{ unfold col. rewrite map_length. destruct S as ([L _] & R & _). congruence. }
  apply H; [apply unitv_length|]. eapply derivable_pt_lim_ext; [|exact D]. intros s. cbn. f_equal.
  assert (length (unitv Rops nl j) = length params) as LU by (rewrite unitv_length; auto).
  apply nth_ext0; [rewrite update_length, vadd_len; unfold vscal; rewrite ?map_length; auto|].
  intros i Hl. rewrite update_length in Hl. rewrite nth_line by auto. unfold unitv. cbn [f_zero f_one Rops].
  destruct (Nat.eq_dec i j) as [->|Hij].
  - fold (at0 (update (repeat 0 nl) j 1) j). fold (at0 (update params j (nth j params 0 + s)) j).
    rewrite !at0_update_eq by (rewrite ?repeat_length; lia). ring.
  - fold (at0 (update (repeat 0 nl) j 1) i). fold (at0 (update params j (nth j params 0 + s)) i).
    rewrite !at0_update_neq by auto. unfold at0. rewrite nth_repeat. ring.
Qed.

(** One street between two crossings, the light at 1/2. *)
Lemma one_street_half : exists w', fw_gradient Rops (@concat _) (fun c r => up (estimate c r)) 2 1 10000 one_street [0; 1]%nat [1 / 2] world0 =
  Ok (mkM 1 1 [[-24]], w').
Proof.
  set (V := fun q => match fw_value Rops 2 1 10000 one_street [0; 1]%nat q world0 with Ok (y, _) => y | Panic _ => 0 end).
  destruct (fw_gradient_entry (@concat _) (fun c r => up (estimate c r)) 2 1 10000 one_street [0; 1]%nat [1 / 2] world0 V)
    as (g & w' & E & S & H).
  - apply rayon_exists.
  - apply CheckMain.accurate_up.
  - vm_compute. discriminate.
  - lia.
  - lra.
  - reflexivity.
  - repeat constructor.
  - repeat constructor. cbn. lia.
  - repeat constructor.
  - repeat constructor; lra.
  - intros q w Lq. unfold V.
    destruct (fw_value_correct 2 1 10000 one_street [0; 1]%nat q w) as (d & w' & Hd & ->); [lra|auto|repeat constructor|repeat constructor|].
    destruct (fw_value_correct 2 1 10000 one_street [0; 1]%nat q world0) as (d' & w2 & Hd' & ->); [lra|auto|repeat constructor|repeat constructor|].
    exists w'. do 2 f_equal. apply (sumsq_ext 2); [apply (prod_lt 2); repeat constructor|].
    intros i j Hi Hj. eapply shortest_unique; eauto.
  - exists w'. rewrite E. clear E. f_equal. f_equal. destruct S as ([L R] & R1 & C1). destruct g as [r c dat]. cbn [m_rows m_cols m_dat] in *. subst r c.
    destruct dat as [|row [|]]; try discriminate. f_equal. f_equal. inversion R as [|? ? Lr _]; subst.
    destruct row as [|a [|]]; try discriminate. f_equal. specialize (H 0%nat (-48)). unfold ent in H. cbn [m_dat nth update] in H.
    rewrite H; [lra|lia|].
    apply (derivable_pt_lim_locally_ext (fun s => (fun q => 2 * Rsqr (1 + / q)) (1 / 2 + s)) _ 0 (-1 / 4) (1 / 4)); [lra| |].
    + intros z Hz. unfold V. destruct (one_street_value (1 / 2 + z) world0) as (w2 & ->); [lra|reflexivity].
    + pose proof (derivable_pt_lim_comp (fun s => 1 / 2 + s) (fun q => 2 * Rsqr (1 + / q)) 0 (0 + 1) (-48)) as C.
      replace (-48) with (-48 * (0 + 1)) by ring. apply C.
      * apply derivable_pt_lim_plus; [apply derivable_pt_lim_const|apply derivable_pt_lim_id].
      * rewrite Rplus_0_r. apply one_street_derivative.
Qed.
