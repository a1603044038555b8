(** Rounding errors of [jacobian_reverse]. *)
From Coq Require Import Reals Lra Lia ZArith Bool List SpecFloat.
From Verif Require Import Base Float FloatInst Operation Tape Spec TapeFacts RealInst F64Facts F64Ops EstF64 DerivSpec
  LinearFacts Matrix MatrixFacts Jacobian JacobianFacts TapeDeriv BallSpec BallFacts BallMain.
Import ListNotations.
Local Open Scope R_scope.

Lemma map_update {A B} (f : A -> B) l : forall k a, map f (update l k a) = update (map f l) k (f a).
Proof. induction l as [|b l IH]; intros [|k] a; cbn; [reflexivity..|]. now rewrite IH. Qed.
Lemma map_unitv {F G} (Fo : Fops F) (Go : Fops G) (f : F -> G) n i :
  f (f_zero Fo) = f_zero Go -> f (f_one Fo) = f_one Go -> map f (unitv Fo n i) = unitv Go n i.
Proof.
  intros E0 E1. unfold unitv. rewrite map_update, E1. f_equal.
  induction n; cbn; [reflexivity|]. now rewrite E0, IHn.
Qed.

Definition rlist {A} (r : res (list A)) : list A := match r with Ok l => l | _ => [] end.

Lemma point_0 : point (S754_zero false) = Some (0, 0).
Proof. reflexivity. Qed.

Section Main.
Context (T : libm) (HT : libm_accurate T) (t : tape spec_float) (x : list spec_float).
Hypothesis W : wf_tape t.
Hypothesis L : length x = num_indeps t.

Theorem jacobian_error t64 tb tr red redb : rayon red -> rayon redb ->
  replays T t x t64 tb tr -> num_abs t = 0%nat -> NoDup (t_deps t) -> in_domains tr ->
  exists J Jb, jacobian_reverse (f64ops T) red t64 = Ok J /\ jacobian_reverse Bops redb tb = Ok Jb /\
    m_rows J = num_deps t /\ m_cols J = num_indeps t /\
    forall i j c r, (i < num_deps t)%nat -> (j < num_indeps t)%nat -> ent Bops Jb i j = Some (c, r) ->
      derivable_pt_lim (fun s => nth i (replay_y (map_tape real_of t)
        (update (map real_of x) j (nth j (map real_of x) 0 + s))) 0) 0 c /\
      exists v, f64 (ent (f64ops T) J i j) v /\ Rabs (v - c) <= r.
Proof.
  intros R1 R2 HR NA ND HD.
  destruct (replay_det T HT t x W L _ _ _ HR) as (HC & HW & I1 & I2 & I3).
  assert (t_deps t64 = t_deps t /\ t_indeps t64 = t_indeps t /\ t_deps tr = t_deps t /\ t_indeps tr = t_indeps t) as (D1 & D2 & D3 & D4).
  { destruct HC as [C1 C2]. destruct C1, C2. repeat split; congruence. }
  set (m := num_deps t).
  set (xs   := fun i => rlist (tape_reverse (f64ops T) t64 (unitv (f64ops T) m i))).
  set (bs   := fun i => rlist (tape_reverse Bops tb (unitv Bops m i))).
  set (zs   := fun i => rlist (tape_reverse Rops tr (unitv Rops m i))).
  assert (forall i, (i < m)%nat -> tape_reverse (f64ops T) t64 (unitv (f64ops T) m i) = Ok (xs i) /\
     tape_reverse Bops tb (unitv Bops m i) = Ok (bs i) /\ tape_reverse Rops tr (unitv Rops m i) = Ok (zs i) /\
     bounded (xs i) (bs i) (zs i)) as HB.
  { intros i Hi. destruct (reverse_error T HT t x W L _ _ _ (unitv (f64ops T) m i) HR NA) as (a & b & c & E1 & E2 & E3 & B).
    - apply unitv_length.
    - rewrite (map_unitv (f64ops T) Bops) in E2; [|exact point_0|exact point_1].
      rewrite (map_unitv (f64ops T) Rops) in E3; [|reflexivity|exact (f64_val _ _ one_f64)].
      unfold xs, bs, zs. rewrite E1, E2, E3. auto. }
  destruct (tape_jacobian (@concat _) (map_tape real_of t) tr (map real_of x)) as (Jr & EJ & _ & _ & HJ).
  { apply rayon_exists. } { now apply wf_map. } { exact NA. } { exact ND. }
  { rewrite map_length. exact L. } { apply HR. } { exact HD. }
  assert (num_deps t64 = m /\ num_deps tb = m /\ num_deps tr = m) as (M1 & M2 & M3) by (unfold m, num_deps; rewrite D1, I2, D3; auto).
  assert (num_indeps t64 = num_indeps t /\ num_indeps tb = num_indeps t /\ num_indeps tr = num_indeps t) as (N1 & N2 & N3)
    by (unfold num_indeps; rewrite D2, I1, D4; auto).
  pose proof (jacobian_reverse_eq (f64ops T) red t64 xs R1) as E1. rewrite M1 in E1. specialize (E1 (fun i Hi => proj1 (HB i Hi))).
  pose proof (jacobian_reverse_eq Bops redb tb bs R2) as E2. rewrite M2 in E2. specialize (E2 (fun i Hi => proj1 (proj2 (HB i Hi)))).
  pose proof (jacobian_reverse_eq Rops (@concat _) tr zs (@rayon_exists _)) as E3. rewrite M3 in E3.
  specialize (E3 (fun i Hi => proj1 (proj2 (proj2 (HB i Hi))))).
  rewrite EJ in E3. injection E3 as ->.
  eexists _, _. split; [exact E1|]. split; [exact E2|]. split; [reflexivity|]. split; [exact N1|].
  intros i j c r Hi Hj. fold m in Hi. rewrite N1, N2. rewrite !ent_tab by auto. intros Hc.
  specialize (HJ i j Hi Hj). rewrite N3, ent_tab in HJ by auto.
  destruct (HB i Hi) as (Q1 & Q2 & Q3 & LX & LZ & B).
  apply tape_reverse_length in Q2. rewrite N2 in Q2.
  destruct (nth_error (bs i) j) as [b|] eqn:Eb; [|apply nth_error_None in Eb; lia].
  rewrite (nth_error_nth _ _ _ Eb) in Hc. subst b.
  destruct (B _ _ _ Eb) as (Ez & y & v & Ex & Hv & Hr).
  rewrite (nth_error_nth _ _ _ Ez) in HJ. rewrite (nth_error_nth _ _ _ Ex). split; [exact HJ|]. eauto.
Qed.
End Main.
