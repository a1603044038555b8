(** The drivers on the half pipe, for every point and direction, in exact arithmetic. *)
From Coq Require Import Reals Lra List Arith ZArith NArith Bool Lia.
From Verif Require Import Base Float Operation Tape AContext Methods Function Spec TapeFacts
  SweepFacts RealInst Param Instances FunctionFacts ReplayFacts Replay2 ApiFacts3 DerivSpec DerivFacts LinearFacts DerivFacts2
  Matrix MatrixFacts Jacobian JacobianFacts AbsNormal AbsNormalFacts AnfSpec RVec AnfFacts AnfFacts2
  ChainFacts Checkpoint CheckSpec CheckMain GenJac GenSpec GenFacts GenMain GenExplicit Samples.
Import ListNotations.
Local Open Scope R_scope.

Ltac rlazy v := eval lazy -[IZR Rplus Rminus Rmult Rdiv Ropp Rabs Rinv sin cos tan exp ln asin acos
                           atan sqrt Rpowf powerRZ pow Rpower Reqb Rltb] in v.
Ltac rcomp t := let v := rlazy t in let H := fresh in assert (H : t = v) by reflexivity; rewrite H; clear H.

Lemma powf_2 x : Rpowf x 2 = x * x.
Proof. rewrite (Rpowf_int x 2). change (x ^ 2 = x * x). ring. Qed.
Lemma powf_1 x : Rpowf x (2 - 1) = x.
Proof. replace (2 - 1) with (IZR 1) by ring. rewrite Rpowf_int. change (x ^ 1 = x). ring. Qed.

Definition hp_tape (x1 x2 : R) : tape R.
Proof.
  let v := rlazy (fn_tape Rops (halfpipe Rops) [x1; x2] world0) in
  match v with Ok (?t, _) => exact t end.
Defined.

Lemma anf_of_unique t N N' : anf_of t N -> anf_of t N' -> N = N'.
Proof.
  intros [(a & z & E1 & E2 & Z & L & J & Y & Ea & Eb)] [(a' & z' & E1' & E2' & Z' & L' & J' & Y' & Ea' & Eb')].
  assert (a' = a) as -> by congruence. assert (z' = z) as -> by congruence.
  pose proof (represents_unique _ _ _ Z Z'). pose proof (represents_unique _ _ _ L L').
  pose proof (represents_unique _ _ _ J J'). pose proof (represents_unique _ _ _ Y Y').
  destruct N as [fa fz fl fb fj fy], N' as [fa' fz' fl' fb' fj' fy']. cbn in *. subst. reflexivity.
Qed.

Lemma recorded_anywhere (f : func R) x t w0 w : fn_tape Rops f x world0 = Ok (t, w0) ->
  exists w', fn_tape Rops f x w = Ok (t, w').
Proof.
  intros H. pose proof (fn_tape_world Rops f x world0 w) as E. rewrite H in E. exact E.
Qed.

Lemma hp_recorded x1 x2 w : exists w', fn_tape Rops (halfpipe Rops) [x1; x2] w = Ok (hp_tape x1 x2, w').
Proof. eapply recorded_anywhere. rtape. reflexivity. Qed.

(** The reference abs-normal form, computed. *)
Definition hp_w (x1 x2 : R) : R := x2 * x2 - Rmax x1 0.
Definition hp_N (x1 x2 : R) : anf :=
  mkANF [x1; x2 * x2 - x1 / 2]
    (mkM 2 2 [[1; 0]; [- / 2; 2 * x2]]) (mkM 2 2 [[0; 0]; [- / 2; 0]])
    [Rabs x1 / 4 - Rabs (hp_w x1 x2) / 2]
    (mkM 1 2 [[- / 4; x2]]) (mkM 1 2 [[- / 4; / 2]]).

Lemma max_abs x : Rmax x 0 = x / 2 + Rabs x / 2.
Proof. unfold Rmax. destruct (Rle_dec x 0); [rewrite Rabs_left1 by lra|rewrite Rabs_right by lra]; lra. Qed.

Lemma hp_anf_value x1 x2 : halfpipe_anf Rops x1 x2 = Ok (hp_N x1 x2).
Proof.
  rcomp (halfpipe_anf Rops x1 x2). f_equal. unfold hp_N, hp_w. rewrite max_abs.
  replace (x2 * x2 - (x1 / 2 + Rabs x1 / 2)) with (x2 * x2 - x1 / 2 - Rabs x1 / 2) by ring.
  assert (1 / 4 = / 4) as -> by lra. f_equal; repeat (f_equal; try lra).
Qed.

Ltac rep_start :=
  split; [split; [split; [reflexivity|repeat constructor]|split; reflexivity]|];
  intros [|d1 [|d2 [|]]] L; cbn in L; try discriminate;
  match goal with |- ?t = _ => rcomp t end.

Lemma hp_anf_of x1 x2 : anf_of (hp_tape x1 x2) (hp_N x1 x2).
Proof.
  constructor. eexists _, _. split; [reflexivity|]. split; [reflexivity|].
  rewrite powf_2.
  assert (x2 * x2 - / 2 * (x1 + 0 + Rabs (x1 - 0)) - 0 = hp_w x1 x2) as ->.
  { unfold hp_w. rewrite max_abs. replace (x1 - 0) with x1 by ring. lra. }
  split; [|split; [|split; [|split; [|split]]]].
  - rep_start. rewrite powf_1. cbn.
    destruct (Reqb d2 0) eqn:E; [apply Reqb_true in E|]; rewrite ?E;
      (destruct (Reqb 0 0) eqn:E0; [|apply Reqb_false in E0; lra]); cbn;
      f_equal; repeat (f_equal; try lra).
  - rep_start. cbn. (destruct (Reqb 0 0) eqn:E0; [|apply Reqb_false in E0; lra]); cbn;
      f_equal; repeat (f_equal; try lra).
  - rep_start. rewrite powf_1. cbn.
    destruct (Reqb d2 0) eqn:E; [apply Reqb_true in E|]; rewrite ?E;
      (destruct (Reqb 0 0) eqn:E0; [|apply Reqb_false in E0; lra]); cbn;
      f_equal; repeat (f_equal; try lra).
  - rep_start. cbn. (destruct (Reqb 0 0) eqn:E0; [|apply Reqb_false in E0; lra]); cbn;
      f_equal; repeat (f_equal; try lra).
  - cbn. replace (x1 - 0) with x1 by ring. unfold hp_w. rewrite max_abs. repeat (f_equal; try lra).
  - cbn. replace (x1 - 0) with x1 by ring. repeat (f_equal; try lra).
Qed.

Theorem halfpipe_anf_right red x1 x2 w : rayon red ->
  exists N, halfpipe_anf Rops x1 x2 = Ok N /\ abs_normal Rops red (halfpipe Rops) [x1; x2] w = Ok N.
Proof.
  intros HR. destruct (hp_recorded x1 x2 w) as (w' & HT).
  destruct (abs_normal_correct red (halfpipe Rops) [x1; x2] w _ w' HR HT) as (N & E & HN).
  - cbn. repeat constructor; cbn; intuition discriminate.
  - unfold abs_once. cbn. repeat constructor; cbn; intuition discriminate.
  - exists (hp_N x1 x2). split; [apply hp_anf_value|]. rewrite E. f_equal.
    apply (anf_of_unique _ _ _ HN). apply hp_anf_of.
Qed.

(** ** Signs when the bits are all zero *)
Definition sign0 (d : R) : R := if Rlt_dec 0 d then 1 else -1.
Lemma bit0 k : bit [0%N] k = false.
Proof. unfold bit. destruct (k / 8)%nat as [|j]; cbn [nth_error]; [apply N.bits_0|destruct j; auto]. Qed.
Lemma selected0 dz sigma : selected [0%N] dz sigma -> sigma = map sign0 dz.
Proof.
  intros [L H]. apply nth_ext0; [rewrite map_length; auto|]. intros i Hi. rewrite L in Hi.
  rewrite (nth_indep (map sign0 dz) 0 (sign0 0)) by (rewrite map_length; auto). rewrite map_nth.
  destruct (H i Hi) as (P & M & Z). unfold sign0. destruct (Rlt_dec 0 (nth i dz 0)); auto.
  destruct (Req_EM_T (nth i dz 0) 0) as [E|E]; [rewrite Z, bit0; auto|apply M; lra].
Qed.

(** ** The generalized Jacobian of the half pipe *)
Definition hp_dz0 (x1 d1 : R) : R := x1 + d1.
Definition hp_dz1 (x1 x2 d1 d2 : R) : R := x2 * x2 + 2 * x2 * d2 - Rmax (x1 + d1) 0.
Definition hp_G (x1 x2 d1 d2 : R) : gjac R :=
  let s0 := sign0 (hp_dz0 x1 d1) in
  let s1 := sign0 (hp_dz1 x1 x2 d1 d2) in
  mkG (mkM 1 2 [[- (1 + s1) * (1 + s0) / 4; (1 + s1) * x2]])
      [Rabs x1 / 4 - Rabs (hp_w x1 x2) / 2 - (1 + s1) * s0 / 4 * x1 + s1 / 2 * (x2 * x2 - x1 / 2)]
      (zeros [hp_dz0 x1 d1; hp_dz1 x1 x2 d1 d2]).

Lemma hp_jacobian_right red x1 x2 d1 d2 next w : rayon red ->
  next = None \/ next = Some (mkG (m_id Rops 1) [0] 0) ->
  exists w', generalized_jacobian Rops red (halfpipe Rops) [x1; x2] [d1; d2] [0%N] next w
    = Ok (hp_G x1 x2 d1 d2, w').
Proof.
  intros HR Hn. destruct (hp_recorded x1 x2 w) as (w' & HT). exists w'.
  destruct (gj_explicit red (halfpipe Rops) [x1; x2] [d1; d2] [0%N] next w _ w' (hp_N x1 x2) HR eq_refl HT)
    as (G & dz & sg & -> & [Ldz Edz] & HS & Hm & (U & SU & EU & HG & HI)).
  - cbn. repeat constructor; cbn; intuition discriminate.
  - unfold abs_once. cbn. repeat constructor; cbn; intuition discriminate.
  - apply hp_anf_of.
  - reflexivity.
  - destruct Hn as [->| ->]; cbn; auto. repeat split; auto. repeat constructor.
  - do 2 f_equal. apply selected0 in HS. subst sg. cbn in Ldz.
    destruct dz as [|z0 [|z1 [|]]]; try discriminate. cbn in Edz. injection Edz as E0 E1.
    assert (z0 = hp_dz0 x1 d1) as -> by (unfold hp_dz0; lra).
    assert (z1 = hp_dz1 x1 x2 d1 d2) as ->.
    { unfold hp_dz1. rewrite max_abs. unfold hp_dz0 in E1. lra. }
    clear E0 E1 Ldz.
    assert (next_rows 1 next = 1%nat /\ next_hom 1 next = mkM 1 1 [[1]] /\ next_inh 1 next = [0] /\ next_mult next = 0%nat)
      as (Er & Eh & Ei & Em).
    { destruct Hn as [->| ->]; auto. }
    change (num_deps (hp_tape x1 x2)) with 1%nat in *. rewrite Er in SU. rewrite Eh in *. rewrite Ei in *. rewrite Em in *.
    cbn [map length] in SU, EU.
    destruct U as [ru cu du]. destruct SU as [[S1 S2] [S3 S4]]. cbn in S1, S2, S3, S4. rewrite S3 in S1. rewrite S4 in S2. subst ru cu.
    destruct du as [|u [|]]; try discriminate. apply Forall_inv in S2.
    destruct u as [|u0 [|u1 [|]]]; try discriminate. clear S1 S2.
    unfold mdiag, madd, mm, ent, col, row in EU. cbn in EU. injection EU as E0 E1. cbn in HG, HI.
    destruct G as [gh gi gm]. cbn in HG, HI, Hm. unfold hp_G. rewrite Hm, HG, HI. clear Hm HG HI.
    set (s0 := sign0 (hp_dz0 x1 d1)) in *. set (s1 := sign0 (hp_dz1 x1 x2 d1 d2)) in *.
    assert (u1 = s1 / 2) as E1' by (rewrite E1; field). clear E1. subst u1.
    assert (u0 = - (1 + s1) * s0 / 4) as E0' by (rewrite E0; field). clear E0. subst u0.
    f_equal; [unfold madd, mm, m_tab; cbn; repeat (f_equal; try field)|f_equal; field|rewrite Nat.add_0_r; auto].
Qed.

Lemma hp_sign_R d : hp_sign Rops d = (sign0 d, if is_zero d then 1 else 0)%nat.
Proof.
  unfold hp_sign, sign0, is_zero. cbn. unfold Rltb.
  destruct (Rlt_dec d 0), (Rlt_dec 0 d), (Req_EM_T d 0); try lra; f_equal; lra.
Qed.

Lemma hp_jacobian_value x1 x2 d1 d2 : halfpipe_jacobian Rops x1 x2 d1 d2 = Ok (hp_G x1 x2 d1 d2).
Proof.
  unfold halfpipe_jacobian. rewrite hp_anf_value.
  cbn [bind hp_N f_a f_zmat f_lmat f_b f_jmat f_ymat get nth_error]. rewrite !hp_sign_R.
  match goal with |- context[sign0 ?d] => assert (d = hp_dz0 x1 d1) as -> by (cbn; unfold hp_dz0; ring) end.
  match goal with |- context[sign0 (f_add Rops ?a ?b)] => assert (f_add Rops a b = hp_dz1 x1 x2 d1 d2) as -> end.
  { cbn. unfold hp_dz1. rewrite max_abs. fold (hp_dz0 x1 d1). unfold hp_dz0 at 2. lra. }
  unfold hp_G. generalize (sign0 (hp_dz0 x1 d1)) as s0. generalize (sign0 (hp_dz1 x1 x2 d1 d2)) as s1.
  generalize (hp_dz1 x1 x2 d1 d2) as z1, (hp_dz0 x1 d1) as z0. intros z1 z0 s1 s0.
  rewrite !zeros_cons. generalize (is_zero z0) as c0, (is_zero z1) as c1, (hp_w x1 x2) as w. intros c0 c1 w.
  match goal with |- ?l = _ => rcomp l end.
  match goal with |- context[Reqb ?d 0] => assert (d = 1) as E by (field); rewrite E; clear E end.
  destruct (Reqb 1 0) eqn:E; [apply Reqb_true in E; lra|]. do 2 f_equal.
  - repeat (f_equal; try field).
  - repeat (f_equal; try field).
  - destruct c0, c1; reflexivity.
Qed.

(** The result in words: the signs of the linearised switching values select one of the smooth
    pieces 0, x2^2 and x2^2 - x1; G is the gradient of that piece and gamma the difference between
    the piece and the function at x. *)
Definition hp_piece (x1 x2 d1 d2 : R) : gjac R :=
  let on := Rlt_dec 0 (hp_dz1 x1 x2 d1 d2) in
  let right := Rlt_dec 0 (hp_dz0 x1 d1) in
  mkG (mkM 1 2 [[if on then if right then -1 else 0 else 0; if on then 2 * x2 else 0]])
      [(if on then x2 * x2 - (if right then x1 else 0) else 0) - Rmax (x2 * x2 - Rmax x1 0) 0]
      (zeros [hp_dz0 x1 d1; hp_dz1 x1 x2 d1 d2]).

Lemma hp_G_piece x1 x2 d1 d2 : hp_G x1 x2 d1 d2 = hp_piece x1 x2 d1 d2.
Proof.
  unfold hp_G, hp_piece, sign0. fold (hp_w x1 x2). rewrite (max_abs (hp_w x1 x2)).
  assert (hp_w x1 x2 = x2 * x2 - (x1 / 2 + Rabs x1 / 2)) as E by (unfold hp_w; rewrite max_abs; auto).
  set (r := Rabs (hp_w x1 x2)). clearbody r. rewrite E. clear E.
  destruct (Rlt_dec 0 (hp_dz1 x1 x2 d1 d2)), (Rlt_dec 0 (hp_dz0 x1 d1)); f_equal;
    repeat (f_equal; try field).
Qed.

(** ** The chain *)
Definition hp1_tape (x1 x2 : R) : tape R.
Proof.
  let v := rlazy (fn_tape Rops (halfpipe_1 Rops) [x1; x2] world0) in
  match v with Ok (?t, _) => exact t end.
Defined.
Definition hp2_tape (p q : R) : tape R.
Proof.
  let v := rlazy (fn_tape Rops (halfpipe_2 Rops) [p; q] world0) in
  match v with Ok (?t, _) => exact t end.
Defined.
Lemma hp1_recorded x1 x2 w : exists w', fn_tape Rops (halfpipe_1 Rops) [x1; x2] w = Ok (hp1_tape x1 x2, w').
Proof. eapply recorded_anywhere. rtape. reflexivity. Qed.
Lemma hp2_recorded x1 x2 w : exists w', fn_tape Rops (halfpipe_2 Rops) [x1; x2] w = Ok (hp2_tape x1 x2, w').
Proof. eapply recorded_anywhere. rtape. reflexivity. Qed.

Definition hp1_N (x1 x2 : R) : anf :=
  mkANF [x1] (mkM 1 2 [[1; 0]]) (mkM 1 1 [[0]]) [- Rabs x1 / 2; 0]
    (mkM 2 2 [[/ 2; 0]; [0; 2 * x2]]) (mkM 2 1 [[/ 2]; [0]]).
Definition hp2_N (p q : R) : anf :=
  mkANF [q - p] (mkM 1 2 [[-1; 1]]) (mkM 1 1 [[0]]) [- Rabs (q - p) / 2]
    (mkM 1 2 [[- / 2; / 2]]) (mkM 1 1 [[/ 2]]).

Lemma Reqb_00 : Reqb 0 0 = true.
Proof. apply Reqb_true. reflexivity. Qed.

Lemma hp1_anf_of x1 x2 : anf_of (hp1_tape x1 x2) (hp1_N x1 x2).
Proof.
  constructor. eexists _, _. split; [reflexivity|]. split; [reflexivity|].
  assert (x1 - 0 = x1) as -> by ring.
  split; [|split; [|split; [|split; [|split]]]].
  - rep_start. f_equal. cbn. repeat (f_equal; try lra).
  - rep_start. f_equal. cbn. repeat (f_equal; try lra).
  - rep_start. rewrite powf_1, Reqb_00. cbn.
    destruct (Reqb d2 0) eqn:E; [apply Reqb_true in E|]; rewrite ?E; f_equal; repeat (f_equal; try lra).
  - rep_start. rewrite Reqb_00. f_equal. cbn. repeat (f_equal; try lra).
  - cbn. repeat (f_equal; try lra).
  - cbn. repeat (f_equal; try lra).
Qed.

Lemma hp2_anf_of p q : anf_of (hp2_tape p q) (hp2_N p q).
Proof.
  constructor. eexists _, _. split; [reflexivity|]. split; [reflexivity|].
  assert (q - p - 0 = q - p) as -> by ring.
  split; [|split; [|split; [|split; [|split]]]].
  - rep_start. f_equal. cbn. repeat (f_equal; try lra).
  - rep_start. f_equal. cbn. repeat (f_equal; try lra).
  - rep_start. f_equal. cbn. repeat (f_equal; try lra).
  - rep_start. f_equal. cbn. repeat (f_equal; try lra).
  - cbn. repeat (f_equal; try lra).
  - cbn. repeat (f_equal; try lra).
Qed.

Ltac small_U U SU EU :=
  let S1 := fresh in let S2 := fresh in let S3 := fresh in let S4 := fresh in
  destruct U as [?ru ?cu [|[|?u0 [|]] [|]]]; destruct SU as [[S1 S2] [S3 S4]]; cbn in S1, S2, S3, S4;
  rewrite S3 in S1; rewrite S4 in S2; try discriminate; try (apply Forall_inv in S2; discriminate); subst; clear S1 S2;
  unfold mdiag, madd, mm, ent, col, row in EU; cbn in EU; injection EU as EU.

Lemma hp2_jacobian red p q dp dq w : rayon red ->
  let s := sign0 (q - p + (dq - dp)) in
  exists w', generalized_jacobian Rops red (halfpipe_2 Rops) [p; q] [dp; dq] [0%N] (Some (mkG (m_id Rops 1) [0] 0)) w
    = Ok (mkG (mkM 1 2 [[- (1 + s) / 2; (1 + s) / 2]]) [- Rabs (q - p) / 2 + s / 2 * (q - p)]
              (zeros [q - p + (dq - dp)]), w').
Proof.
  intros HR s. destruct (hp2_recorded p q w) as (w' & HT). exists w'.
  destruct (gj_explicit red (halfpipe_2 Rops) [p; q] [dp; dq] [0%N] (Some (mkG (m_id Rops 1) [0] 0)) w _ w'
    (hp2_N p q) HR eq_refl HT) as (G & dz & sg & -> & [Ldz Edz] & HS & Hm & (U & SU & EU & HG & HI)).
  - cbn. repeat constructor; cbn; intuition discriminate.
  - unfold abs_once. cbn. repeat constructor; cbn; intuition discriminate.
  - apply hp2_anf_of.
  - reflexivity.
  - cbn. repeat split; auto. repeat constructor.
  - do 2 f_equal. apply selected0 in HS. subst sg. cbn in Ldz.
    destruct dz as [|z0 [|]]; try discriminate. cbn in Edz. injection Edz as E0.
    assert (z0 = q - p + (dq - dp)) as -> by lra. clear E0 Ldz.
    change (num_deps (hp2_tape p q)) with 1%nat in *. cbn [map length] in SU, EU. fold s in SU, EU.
    small_U U SU EU. cbn in HG, HI, Hm.
    destruct G as [gh gi gm]. cbn in HG, HI, Hm. rewrite Hm, HG, HI. clear Hm HG HI.
    assert (u0 = s / 2) as E0' by (rewrite EU; field). clear EU. subst u0.
    f_equal; [unfold madd, mm, m_tab; cbn; repeat (f_equal; try field)|f_equal; field|rewrite Nat.add_0_r; auto].
Qed.

Lemma hp1_jacobian red x1 x2 d1 d2 g1 g2 gam k w : rayon red ->
  let s := sign0 (x1 + d1) in
  exists w', generalized_jacobian Rops red (halfpipe_1 Rops) [x1; x2] [d1; d2] [0%N]
      (Some (mkG (mkM 1 2 [[g1; g2]]) [gam] k)) w
    = Ok (mkG (mkM 1 2 [[g1 * (1 + s) / 2; g2 * (2 * x2)]]) [gam - g1 * Rabs x1 / 2 + g1 * s / 2 * x1]
              (zeros [x1 + d1] + k), w').
Proof.
  intros HR s. destruct (hp1_recorded x1 x2 w) as (w' & HT). exists w'.
  destruct (gj_explicit red (halfpipe_1 Rops) [x1; x2] [d1; d2] [0%N] (Some (mkG (mkM 1 2 [[g1; g2]]) [gam] k)) w _ w'
    (hp1_N x1 x2) HR eq_refl HT) as (G & dz & sg & -> & [Ldz Edz] & HS & Hm & (U & SU & EU & HG & HI)).
  - cbn. repeat constructor; cbn; intuition discriminate.
  - unfold abs_once. cbn. repeat constructor; cbn; intuition discriminate.
  - apply hp1_anf_of.
  - reflexivity.
  - cbn. repeat split; auto. repeat constructor.
  - do 2 f_equal. apply selected0 in HS. subst sg. cbn in Ldz.
    destruct dz as [|z0 [|]]; try discriminate. cbn in Edz. injection Edz as E0.
    assert (z0 = x1 + d1) as -> by lra. clear E0 Ldz.
    change (num_deps (hp1_tape x1 x2)) with 2%nat in *. cbn [map length] in SU, EU. fold s in SU, EU.
    small_U U SU EU. cbn in HG, HI, Hm.
    destruct G as [gh gi gm]. cbn in HG, HI, Hm. rewrite Hm, HG, HI. clear Hm HG HI.
    assert (u0 = g1 * s / 2) as E0' by (rewrite EU; field). clear EU. subst u0.
    f_equal; [unfold madd, mm, m_tab; cbn; repeat (f_equal; try field)|f_equal; field].
Qed.

Lemma hp_compose red x1 x2 d1 d2 : rayon red ->
  compose red [halfpipe_1 Rops; halfpipe_2 Rops] [x1; x2] [d1; d2] = Ok (hp_G x1 x2 d1 d2).
Proof.
  intros HR. cbn [compose].
  match goal with |- context[eval Rops (halfpipe_1 Rops) ?a world0] => rcomp (eval Rops (halfpipe_1 Rops) a world0) end.
  cbn [bind fst map af_v af_dv].
  match goal with |- context[eval Rops (halfpipe_2 Rops) ?a world0] => rcomp (eval Rops (halfpipe_2 Rops) a world0) end.
  cbn [bind fst map af_v af_dv length repeat]. rewrite powf_2, powf_1, Reqb_00.
  match goal with |- context[generalized_jacobian Rops red (halfpipe_2 Rops) [?p; ?q] [?dp; ?dq] _ _ _] =>
    destruct (hp2_jacobian red p q dp dq world0 HR) as (w2 & E2);
    change (mkG (m_id Rops 1) [f_zero Rops] 0) with (mkG (m_id Rops 1) [0] 0); rewrite E2; clear E2;
    assert (p = Rmax x1 0) as E; [|rewrite E; clear E]; [|
    assert (dp = Rmax (x1 + d1) 0 - Rmax x1 0) as E; [|rewrite E; clear E]; [|
    assert (dq = 2 * x2 * d2) as E; [|rewrite E; clear E]]]
  end.
  - rewrite max_abs. replace (x1 - 0) with x1 by ring. field.
  - rewrite !max_abs. replace (x1 - 0 + (d1 - 0)) with (x1 + d1) by ring. replace (x1 - 0) with x1 by ring. field.
  - destruct (Reqb d2 0) eqn:E; [apply Reqb_true in E|]; rewrite ?E; cbn; ring.
  - cbn [bind fst].
    match goal with |- context[sign0 ?d] => assert (d = hp_dz1 x1 x2 d1 d2) as -> by (unfold hp_dz1; ring) end.
    match goal with |- context[generalized_jacobian Rops red (halfpipe_1 Rops) _ _ _ (Some (mkG (mkM 1 2 [[?g1; ?g2]]) [?gam] ?k)) _] =>
      destruct (hp1_jacobian red x1 x2 d1 d2 g1 g2 gam k world0 HR) as (w1 & E1) end.
    rewrite E1. cbn [bind fst]. f_equal. unfold hp_G. fold (hp_w x1 x2).
    fold (hp_dz0 x1 d1).
    assert (hp_w x1 x2 = x2 * x2 - (x1 / 2 + Rabs x1 / 2)) as E by (unfold hp_w; rewrite max_abs; auto).
    set (r := Rabs (hp_w x1 x2)). clearbody r. rewrite E. clear E.
    generalize (sign0 (hp_dz0 x1 d1)) as s0, (sign0 (hp_dz1 x1 x2 d1 d2)) as s1. intros s0 s1.
    f_equal.
    + repeat (f_equal; try field).
    + f_equal. field.
    + rewrite !zeros_cons. cbn [zeros filter length]. fold (hp_dz0 x1 d1). lia.
Qed.

Theorem halfpipe_chain_right red est x1 x2 d1 d2 (k : option nat) w : rayon red -> accurate est 3 ->
  match k with Some c => (2 <= c)%nat | None => True end ->
  exists c w', halfpipe_chain Rops = Ok c /\
    generalized_jacobian_chain Rops red est c [x1; x2] [d1; d2] k w = Ok (hp_G x1 x2 d1 d2, w').
Proof.
  intros HR HA Hk. exists (Chain [halfpipe_1 Rops; halfpipe_2 Rops]).
  set (c := Chain [halfpipe_1 Rops; halfpipe_2 Rops]).
  assert (generalized_jacobian_chain Rops red est c [x1; x2] [d1; d2] k =
    generalized_jacobian_chain Rops red est c [x1; x2] [d1; d2] (Some (match k with Some j => j | None => 2%nat end))) as ->.
  { unfold generalized_jacobian_chain. destruct k; reflexivity. }
  pose proof (gj_chain_compose red est c [x1; x2] [d1; d2] (match k with Some j => j | None => 2%nat end) w HA) as H.
  change (fn_iter c) with [halfpipe_1 Rops; halfpipe_2 Rops] in H. rewrite hp_compose in H by auto.
  destruct H as (w' & H); [cbn; lia|destruct k; auto|]. exists w'. split; [reflexivity|exact H].
Qed.

(** ** What the samples compute *)
Lemma max_0 u v : u = v -> / 2 * (u + 0 + Rabs (u - 0)) = Rmax v 0.
Proof. intros ->. rewrite max_abs. replace (v - 0) with v by ring. field. Qed.

Lemma halfpipe_outputs x1 x2 : outputs (halfpipe Rops) [x1; x2] = [Rmax (x2 * x2 - Rmax x1 0) 0].
Proof.
  unfold outputs.
  match goal with |- match ?l with _ => _ end = _ => rcomp l end.
  rewrite ?powf_2. f_equal. apply max_0. f_equal. apply max_0. auto.
Qed.

Lemma halfpipe_chain_outputs x1 x2 : exists c, halfpipe_chain Rops = Ok c /\
  outputs c [x1; x2] = [Rmax (x2 * x2 - Rmax x1 0) 0].
Proof.
  exists (Chain [halfpipe_1 Rops; halfpipe_2 Rops]). split; [reflexivity|]. unfold outputs.
  match goal with |- match ?l with _ => _ end = _ => rcomp l end.
  rewrite ?powf_2. f_equal. apply max_0. f_equal. apply max_0. auto.
Qed.

Lemma hp_reference_piece x1 x2 d1 d2 : exists g1 g2 c G,
  halfpipe_jacobian Rops x1 x2 d1 d2 = Ok G /\
  g_hom G = mkM 1 2 [[g1; g2]] /\ g_inh G = [c - Rmax (x2 * x2 - Rmax x1 0) 0] /\
  let u := x1 + d1 in
  let v := x2 * x2 + 2 * x2 * d2 - Rmax u 0 in
  (v <= 0 -> g1 = 0 /\ g2 = 0 /\ c = 0) /\
  (0 < v -> u <= 0 -> g1 = 0 /\ g2 = 2 * x2 /\ c = x2 * x2) /\
  (0 < v -> 0 < u -> g1 = -1 /\ g2 = 2 * x2 /\ c = x2 * x2 - x1) /\
  g_mult G = zeros [u; v].
Proof.
  rewrite hp_jacobian_value, hp_G_piece. unfold hp_piece.
  do 4 eexists. split; [reflexivity|]. split; [reflexivity|]. split; [reflexivity|].
  change (x2 * x2 + 2 * x2 * d2 - Rmax (x1 + d1) 0) with (hp_dz1 x1 x2 d1 d2).
  change (x1 + d1) with (hp_dz0 x1 d1).
  generalize (hp_dz1 x1 x2 d1 d2) as v, (hp_dz0 x1 d1) as u. intros v u. cbn [g_mult].
  destruct (Rlt_dec 0 v), (Rlt_dec 0 u); repeat split; intros; try (exfalso; lra); try reflexivity; try lra.
Qed.

Lemma hp_piece_0 : hp_piece 0 0 (-1) 1 = mkG (mkM 1 2 [[0; 0]]) [0 - Rmax (0 * 0 - Rmax 0 0) 0] 1.
Proof.
  unfold hp_piece, hp_dz1, hp_dz0.
  assert (Rmax (0 + -1) 0 = 0) as -> by (apply Rmax_right; lra).
  destruct (Rlt_dec 0 (0 * 0 + 2 * 0 * 1 - 0)); [lra|]. f_equal.
  rewrite !zeros_cons. unfold is_zero. destruct (Req_EM_T (0 + -1) 0); [lra|].
  destruct (Req_EM_T (0 * 0 + 2 * 0 * 1 - 0) 0); [reflexivity|lra].
Qed.

Lemma hp_formula_example : gj_formula (hp_N 1 2) 1 None [1; 1] (hp_piece 1 2 0 0).
Proof.
  exists (mkM 1 2 [[- (1 / 2); 1 / 2]]).
  assert (Rmax 1 0 = 1) as E1 by (apply Rmax_left; lra).
  split; [repeat split; repeat constructor|].
  unfold hp_piece, hp_dz1, hp_dz0, hp_N, hp_w. rewrite !Rplus_0_r, E1.
  destruct (Rlt_dec 0 1); [|lra]. destruct (Rlt_dec 0 (2 * 2 + 2 * 2 * 0 - 1)); [|lra].
  assert (Rmax (2 * 2 - 1) 0 = 3) as -> by (rewrite Rmax_left; lra).
  assert (Rabs (2 * 2 - 1) = 3) as -> by (rewrite Rabs_right; lra). rewrite Rabs_R1.
  unfold mdiag, madd, mm, ent, col, row. repeat split; cbn; try (unfold m_tab; cbn); repeat (f_equal; try field).
Qed.
