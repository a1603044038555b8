(** num-traits' provided methods of [Float] that AFloat does not override (num-traits 0.2, not part
    of /repo; AFloat gets them by afloat.rs:295-391): to_degrees, to_radians, epsilon. *)
From Coq Require Import Reals Lra List Arith ZArith SpecFloat.
From Flocq Require Import Core.
From Verif Require Import Base Float FloatInst Operation Tape AContext AContextFacts Methods Function RealInst F64Facts F64Ops BallSpec
  Matrix Jacobian.
Import ListNotations.

Section Angles.
Local Open Scope nat_scope.
Context {S V St : Type} (So : Fops S).
Context (fop : OpCode -> V -> option V -> M St V) (cst : S -> V).

(** [let halpi = Self::zero().acos(); let ninety = Self::from(90u8).unwrap(); self * ninety / halpi] *)
Definition m_to_degrees (a : V) : M St V :=
  h <~ m_acos fop (c_zero So cst) ;; t <~ m_mul fop a (cst (f_of_Z So 90)) ;; m_div fop t h.
(** [self * halpi / ninety] *)
Definition m_to_radians (a : V) : M St V :=
  h <~ m_acos fop (c_zero So cst) ;; t <~ m_mul fop a h ;; m_div fop t (cst (f_of_Z So 90)).

(** The same in user functions of one variable. *)
Definition degrees_fn : func S :=
  AdvFn 1 1 (LetC (f_zero So) (Let1 UAcos 1 (LetC (f_of_Z So 90) (Let2 BMul 0 3 (Let2 BDiv 4 2 (Ret [5])))))).
Definition radians_fn : func S :=
  AdvFn 1 1 (LetC (f_zero So) (Let1 UAcos 1 (LetC (f_of_Z So 90) (Let2 BMul 0 2 (Let2 BDiv 4 3 (Ret [5])))))).
End Angles.

(** [Self::from(f32::EPSILON)] for ADouble: the conversion of 2^-23 is exact *)
Definition ad_epsilon : AF spec_float := af_new (S754_finite false 4503599627370496 (-75)) (S754_zero false).

Section Values.
Context {S F : Type} (So : Fops S) (tof : S -> option F).

Theorem degrees_value x w r w' : m_to_degrees So (from_op So tof) (af_const So) x w = Ok (r, w') ->
  af_v r = f_div So (f_mul So (af_v x) (f_of_Z So 90)) (f_acos So (f_zero So)).
Proof.
  unfold m_to_degrees, mbind, m_acos, m_mul, m_div, c_zero.
  destruct (from_op _ _ Acos _ _ w) as [[h w1]|] eqn:E1; [|discriminate].
  destruct (from_op _ _ Mul _ _ w1) as [[t w2]|] eqn:E2; [|discriminate]. intros E3.
  apply from_op_spec in E1 as (V1 & _). apply from_op_spec in E2 as (V2 & _). apply from_op_spec in E3 as (V3 & _).
  cbn in V1, V2, V3. congruence.
Qed.
Theorem radians_value x w r w' : m_to_radians So (from_op So tof) (af_const So) x w = Ok (r, w') ->
  af_v r = f_div So (f_mul So (af_v x) (f_acos So (f_zero So))) (f_of_Z So 90).
Proof.
  unfold m_to_radians, mbind, m_acos, m_mul, m_div, c_zero.
  destruct (from_op _ _ Acos _ _ w) as [[h w1]|] eqn:E1; [|discriminate].
  destruct (from_op _ _ Mul _ _ w1) as [[t w2]|] eqn:E2; [|discriminate]. intros E3.
  apply from_op_spec in E1 as (V1 & _). apply from_op_spec in E2 as (V2 & _). apply from_op_spec in E3 as (V3 & _).
  cbn in V1, V2, V3. congruence.
Qed.
Theorem angles_return x w : af_ctx x = None ->
  (exists r, m_to_degrees So (from_op So tof) (af_const So) x w = Ok (r, w) /\ af_ctx r = None) /\
  (exists r, m_to_radians So (from_op So tof) (af_const So) x w = Ok (r, w) /\ af_ctx r = None).
Proof. destruct x as [v d c]. cbn. intros ->. split; eexists; split; reflexivity. Qed.
End Values.

Local Open Scope R_scope.

Section Exact.
Context {F : Type} (tof : R -> option F).
Lemma pi_pos : PI <> 0. Proof. pose proof PI_RGT_0. lra. Qed.
Theorem degrees_exact (x : AF R) (w : world F) r w' : m_to_degrees Rops (from_op Rops tof) (af_const Rops) x w = Ok (r, w') ->
  af_v r = af_v x * (180 / PI) /\ af_dv r = af_dv x * (180 / PI).
Proof.
  unfold m_to_degrees, mbind, m_acos, m_mul, m_div, c_zero.
  destruct (from_op _ _ Acos _ _ w) as [[h w1]|] eqn:E1; [|discriminate].
  destruct (from_op _ _ Mul _ _ w1) as [[t w2]|] eqn:E2; [|discriminate]. intros E3.
  apply from_op_spec in E1 as (V1 & D1 & _). apply from_op_spec in E2 as (V2 & D2 & _). apply from_op_spec in E3 as (V3 & D3 & _).
  cbn in V1, V2, V3, D1, D2, D3. pose proof pi_pos as HP.
  injection V1 as V1. injection V2 as V2. injection V3 as V3. injection D1 as D1. injection D2 as D2. injection D3 as D3.
  rewrite acos_0 in V1. rewrite <- V3, <- D3, <- V2, <- D2, <- V1, <- D1. unfold powerRZ. cbn [Pos.to_nat Pos.iter_op Nat.add pow].
  split; [field; auto|]. cbn. match goal with |- context[- 0 / ?q] => replace (- 0 / q) with 0 by (unfold Rdiv; ring) end. field. auto.
Qed.
Theorem radians_exact (x : AF R) (w : world F) r w' : m_to_radians Rops (from_op Rops tof) (af_const Rops) x w = Ok (r, w') ->
  af_v r = af_v x * (PI / 180) /\ af_dv r = af_dv x * (PI / 180).
Proof.
  unfold m_to_radians, mbind, m_acos, m_mul, m_div, c_zero.
  destruct (from_op _ _ Acos _ _ w) as [[h w1]|] eqn:E1; [|discriminate].
  destruct (from_op _ _ Mul _ _ w1) as [[t w2]|] eqn:E2; [|discriminate]. intros E3.
  apply from_op_spec in E1 as (V1 & D1 & _). apply from_op_spec in E2 as (V2 & D2 & _). apply from_op_spec in E3 as (V3 & D3 & _).
  cbn in V1, V2, V3, D1, D2, D3. pose proof pi_pos as HP.
  injection V1 as V1. injection V2 as V2. injection V3 as V3. injection D1 as D1. injection D2 as D2. injection D3 as D3.
  rewrite acos_0 in V1. rewrite <- V3, <- D3, <- V2, <- D2, <- V1, <- D1. cbn.
  split; [field|]. match goal with |- context[- 0 / ?q] => replace (- 0 / q) with 0 by (unfold Rdiv; ring) end. field.
Qed.
End Exact.
