(** Rounding errors of replays and sweeps. *)
From Coq Require Import Reals Lra Lia ZArith Bool List SpecFloat Psatz Sorted.
From Flocq Require Import Core BinarySingleNaN.
From Verif Require Import Base Float FloatInst Operation Tape Spec TapeFacts RealInst F64Facts F64Ops EstF64 DerivSpec
  LinearFacts TapeDeriv FopsRel BallSpec BallFacts.
Import ListNotations.
Local Open Scope R_scope.

Lemma wf_map {F G} (f : F -> G) t : wf_tape t -> wf_tape (map_tape f t).
Proof. intros [A B C D E H]. constructor; cbn; auto; rewrite map_length; auto. Qed.
Lemma wf_same {F} (t t' : tape F) : wf_tape t -> t_indeps t' = t_indeps t -> t_deps t' = t_deps t -> t_ops t' = t_ops t ->
  length (t_vals t') = length (t_vals t) -> wf_tape t'.
Proof. intros [A B C D E H] E1 E2 E3 E4. constructor; rewrite ?E1, ?E2, ?E3, ?E4; auto. Qed.

(** The tape replayed at the doubles [x]: in binary64, in balls, exactly. *)
Definition replays (T : libm) (t : tape spec_float) (x : list spec_float) (t64 : tape spec_float) (tb : tape ball) (tr : tape R) : Prop :=
  tape_zero_order (f64ops T) t x = Ok t64 /\
  tape_zero_order Bops (map_tape point t) (map point x) = Ok tb /\
  tape_zero_order Rops (map_tape real_of t) (map real_of x) = Ok tr.

Section Main.
Context (T : libm) (HT : libm_accurate T) (t : tape spec_float) (x : list spec_float).
Hypothesis W : wf_tape t.
Hypothesis L : length x = num_indeps t.

Lemma replay_close : exists t64 tb tr, replays T t x t64 tb tr /\ close t64 tb tr /\ wf_tape tb.
Proof.
  destruct (zero_sweep_values Bops (map_tape point t) (map point x)) as (tb & E & A & B & C & V).
  - now apply wf_map.
  - rewrite map_length. exact L.
  - destruct (close_zero T HT _ _ _ _ _ (close_points t) E) as (t64 & tr & E1 & E2 & HC).
    exists t64, tb, tr. split; [repeat split; auto|]. split; [exact HC|].
    eapply wf_same; [apply (wf_map point t W)|auto..]. apply (va_len _ _ _ _ V).
Qed.
Lemma replay_det t64 tb tr : replays T t x t64 tb tr -> close t64 tb tr /\ wf_tape tb /\
  t_indeps tb = t_indeps t /\ t_deps tb = t_deps t /\ t_ops tb = t_ops t.
Proof.
  intros (E1 & E2 & E3). destruct replay_close as (a & b & c & (F1 & F2 & F3) & HC & HW).
  rewrite E1 in F1. rewrite E2 in F2. rewrite E3 in F3. injection F1 as <-. injection F2 as <-. injection F3 as <-.
  split; [auto|]. split; [auto|].
  destruct (zero_sweep_values Bops (map_tape point t) (map point x)) as (tb' & E & A & B & C & V).
  - now apply wf_map.
  - rewrite map_length. exact L.
  - rewrite E2 in E. injection E as <-. auto.
Qed.

Theorem replay_error : exists t64 tb tr y yb z, replays T t x t64 tb tr /\
  tape_y t64 = Ok y /\ tape_y tb = Ok yb /\ tape_y tr = Ok z /\ bounded y yb z.
Proof.
  destruct replay_close as (t64 & tb & tr & HR & HC & HW). exists t64, tb, tr.
  destruct (gather_ok (t_deps tb) (t_vals tb)) as (yb & Ey); [apply (wf_dep_range _ HW)|].
  destruct (close_y _ _ _ _ HC Ey) as (y & z & Ey1 & Ey2 & HB). exists y, yb, z. split; [auto|]. split; [auto|]. split; [exact Ey|]. auto.
Qed.
Theorem forward_error t64 tb tr dx : replays T t x t64 tb tr -> length dx = num_indeps t ->
  exists dy db dz, tape_forward (f64ops T) t64 dx = Ok dy /\ tape_forward Bops tb (map point dx) = Ok db /\
    tape_forward Rops tr (map real_of dx) = Ok dz /\ bounded dy db dz.
Proof.
  intros HR HL. destruct (replay_det _ _ _ HR) as (HC & HW & I1 & I2 & I3).
  destruct (forward_tangents Bops tb (map point dx) HW) as (arr & db & _ & E & _).
  - unfold num_indeps in *. rewrite map_length, I1. exact HL.
  - destruct (close_forward T HT _ _ _ _ _ HC E) as (dy & dz & E1 & E2 & HB). exists dy, db, dz. auto.
Qed.
Theorem reverse_error t64 tb tr ybar : replays T t x t64 tb tr -> num_abs t = 0%nat -> length ybar = num_deps t ->
  exists xbar xb xr, tape_reverse (f64ops T) t64 ybar = Ok xbar /\ tape_reverse Bops tb (map point ybar) = Ok xb /\
    tape_reverse Rops tr (map real_of ybar) = Ok xr /\ bounded xbar xb xr.
Proof.
  intros HR NA HL. destruct (replay_det _ _ _ HR) as (HC & HW & I1 & I2 & I3).
  destruct HC as [C1 C2].
  assert (wf_tape tr) as WR.
  { destruct C2 as [D1 D2 D3 D4]. apply F2_len in D4. destruct HW as [A B C D E H].
    constructor; rewrite <- ?D1, <- ?D2, <- ?D3, <- ?D4; auto. }
  destruct (adjoint tr (map real_of ybar) (map (fun _ => 0) (t_indeps tr)) WR) as (xr & dy & E & _).
  - unfold no_abs, num_abs in *. rewrite <- (tr_ops _ _ _ C2), I3. exact NA.
  - rewrite map_length. unfold num_deps in *. now rewrite <- (tr_deps _ _ _ C2), I2.
  - rewrite map_length. reflexivity.
  - pose proof (rel_tape_reverse _ _ _ about_related _ _ (map point ybar) (map real_of ybar) C2 ltac:(apply F2_map, about_point)) as HB.
    rewrite E in HB. destruct (rrel_ok _ _ _ HB) as (xb & Eb & _).
    destruct (close_reverse T HT _ _ _ _ _ (conj C1 C2) Eb) as (xbar & xr' & E1 & E2 & HB2).
    exists xbar, xb, xr'. auto.
Qed.
(** Together with C63: the binary64 gradient is within the radius of the true one. *)
Theorem gradient_error t64 tb tr ybar : replays T t x t64 tb tr -> num_abs t = 0%nat -> NoDup (t_deps t) -> length ybar = num_deps t ->
  in_domains tr ->
  exists xbar xb xr, tape_reverse (f64ops T) t64 ybar = Ok xbar /\ tape_reverse Bops tb (map point ybar) = Ok xb /\
    bounded xbar xb xr /\
    forall dx, length dx = length x ->
      derivable_pt_lim (fun s => dot (map real_of ybar) (replay_y (map_tape real_of t) (vadd (map real_of x) (vscal s dx)))) 0 (dot xr dx).
Proof.
  intros HR NA ND HL HD. destruct (reverse_error _ _ _ _ HR NA HL) as (xbar & xb & xr & E1 & E2 & E3 & HB).
  exists xbar, xb, xr. split; [auto|]. split; [auto|]. split; [auto|].
  destruct (tape_gradient (map_tape real_of t) tr (map real_of x) (map real_of ybar)) as (xr' & E & G).
  - now apply wf_map.
  - exact NA.
  - exact ND.
  - rewrite map_length. exact L.
  - rewrite map_length. exact HL.
  - apply HR.
  - exact HD.
  - rewrite E3 in E. injection E as <-. intros dx HL'. apply G. now rewrite map_length.
Qed.
End Main.

(** ** Example: sin(x0) * x1 at (1, 3) *)
Definition sx_tape : tape spec_float :=
  mkTape [0; 1]%nat [3]%nat [op_sin 2 0; op_mul 3 2 1]%nat [S754_nan; S754_nan; S754_nan; S754_nan].
Lemma sx_wf : wf_tape sx_tape.
Proof.
  constructor; cbn.
  - intros o [<-|[<-|[]]]; unfold wf_op; cbn; (split; [lia|]); (split; [eexists; split; [reflexivity|lia]|]);
      [reflexivity|eexists; split; [reflexivity|lia]].
  - repeat constructor.
  - intuition lia.
  - repeat constructor; cbn; intuition lia.
  - intros i [<-|[<-|[]]] [H|[H|[]]]; discriminate.
  - intuition lia.
Qed.
Lemma point_Z n x v : lit n = x -> valid_binary prec64 emax64 x && is_finite_SF x = true -> real_of x = v -> point (lit n) = Some (v, 0).
Proof. intros -> E <-. unfold point. now rewrite E. Qed.
Lemma point_1 : point (lit 1) = Some (1, 0).
Proof.
  eapply point_Z; [reflexivity|vm_compute; reflexivity|]. exact (f64_val _ _ one_f64).
Qed.
Lemma point_3 : point (lit 3) = Some (3, 0).
Proof.
  eapply point_Z; [reflexivity|vm_compute; reflexivity|]. 
  apply (f64_val (sf_of_Z 3) 3). rewrite <- (rnd_exact 3) by lia. apply f64_of_Z.
  rewrite Rabs_pos_eq by lra. apply Rle_trans with (bpow radix2 2); [cbn; lra|]. apply bpow_le. lia.
Qed.
Lemma rleb_yes a b : a <= b -> rleb a b = true.
Proof. intros H. unfold rleb. destruct (Rle_dec a b); [auto|contradiction]. Qed.
Lemma sx_ball : exists tb r,
  tape_zero_order Bops (map_tape point sx_tape) (map point [lit 1; lit 3]) = Ok tb /\
  tape_y tb = Ok [Some (3 * sin 1, r)] /\ 0 < r <= / 2 ^ 46.
Proof.
  cbn [map]. rewrite point_1, point_3.
  pose proof (SIN_bound 1) as SB. assert (Rabs (sin 1) <= 1) as SA by (apply Rabs_le; lra). pose proof (Rabs_pos (sin 1)) as SP.
  assert (16 <= huge) as HH.
  { unfold huge. replace 16 with (2 ^ 4) by (cbn; lra). apply Rle_pow; [lra|lia]. }
  assert (0 < tiny <= / 2 ^ 50) as HTi.
  { split; [apply tiny_pos|]. unfold tiny. apply Rinv_le_contravar; [apply pow_lt; lra|]. apply Rle_pow; [lra|lia]. }
  assert (0 < lib_err) as HL by (unfold lib_err; apply Rinv_0_lt_compat, pow_lt; lra).
  set (r1 := 0 + (lib_err * (Rabs (sin 1) + 0) + tiny)).
  assert (0 < r1 <= 2 * lib_err) as Hr1 by (unfold r1, lib_err in *; nra).
  assert (lib_err <= / 16) as HL2.
  { unfold lib_err. replace 16 with (2 ^ 4) by (cbn; lra). apply Rinv_le_contravar; [apply pow_lt; lra|]. apply Rle_pow; [lra|lia]. }
  set (e := r1 * Rabs 3 + Rabs (sin 1) * 0 + r1 * 0).
  assert (e = 3 * r1) as Ee by (unfold e; rewrite (Rabs_pos_eq 3) by lra; ring).
  exists (mkTape [0; 1]%nat [3]%nat [op_sin 2 0; op_mul 3 2 1]%nat
    [Some (1, 0); Some (3, 0); Some (sin 1, r1); Some (sin 1 * 3, e + (ulp1 * (Rabs (sin 1 * 3) + e) + tiny))]),
    (e + (ulp1 * (Rabs (sin 1 * 3) + e) + tiny)).
  assert (Rabs (sin 1 * 3) <= 3) as S3 by (rewrite Rabs_mult, (Rabs_pos_eq 3) by lra; lra).
  pose proof (Rabs_pos (sin 1 * 3)) as S3P.
  split; [|split].
  - assert (b_sin (Some (1, 0)) = Some (sin 1, r1)) as B1.
    { cbn. unfold lib. rewrite rleb_yes by lra. reflexivity. }
    assert (b_mul (Some (sin 1, r1)) (Some (3, 0)) = Some (sin 1 * 3, e + (ulp1 * (Rabs (sin 1 * 3) + e) + tiny))) as B2.
    { cbn. fold e. unfold rounded. rewrite rleb_yes by lra.
      assert (Reqb e 0 = false) as -> by (apply Reqb_false; lra). reflexivity. }
    unfold tape_zero_order, sx_tape, map_tape. cbn -[b_sin b_mul]. rewrite B1. cbn -[b_sin b_mul]. rewrite B2. reflexivity.
  - cbn. rewrite (Rmult_comm (sin 1) 3). reflexivity.
  - assert (ulp1 <= lib_err) as HU.
    { unfold ulp1, lib_err. apply Rinv_le_contravar; [apply pow_lt; lra|]. apply Rle_pow; [lra|lia]. }
    assert (0 < ulp1) by (rewrite ulp1_val; lra).
    assert (/ 2 ^ 46 = 16 * lib_err) as -> by (unfold lib_err; cbn; lra).
    change (/ 2 ^ 50) with lib_err in HTi. rewrite Ee. split; nra.
Qed.
