(** Property theorems C80: the functions the benchmarks measure. *)
From Coq Require Import Reals Lra List Arith ZArith NArith Bool Lia.
From Verif Require Import Base Float Operation Tape AContext Methods Function Spec RealInst Instances
  Matrix MatrixFacts AbsNormal AnfSpec RVec AnfFacts2 Checkpoint CheckSpec CheckMain GenJac StraightSpec OnceMain Benches BenchFacts BenchMain.
Import ListNotations.
Open Scope R_scope.

(** *** C80 What the benchmarks compute.
    [clamp e] is e moved into [0, 1].  The three functions compute the greatest of the clamped inputs. *)
Theorem C80_values :
  forall (n : nat) (x : list R) (w : world R), (1 <= n)%nat -> length x = n ->
  exists y c, bench_chain Rops n = Ok c /\
    eval_float Rops (bench_lazy Rops n) x w = Ok ([y], w) /\
    eval_float Rops (bench_eager Rops n) x w = Ok ([y], w) /\
    eval_float Rops c x w = Ok ([y], w) /\
    (forall e, In e x -> Rmin (Rmax e 0) 1 <= y) /\ exists e, In e x /\ y = Rmin (Rmax e 0) 1.
Proof. exact bench_values. Qed.
Print Assumptions C80_values.

(** [propagate]: every input or zero. *)
Theorem C80_propagate_value :
  forall (n : nat) (x : list R) (w : world R), length x = n ->
  eval_float Rops (bench_propagate Rops n) x w = Ok (map (fun v => Rmax v 0) x, w).
Proof. exact propagate_float. Qed.
Print Assumptions C80_propagate_value.

(** The size of the problem: three switching variables per input, in every arithmetic and at every point. *)
Theorem C80_sizes :
  forall (F : Type) (Fo : Fops F) (n : nat) (x : list F) (w : world F), length x = n ->
  (exists t w', fn_tape Fo (bench_lazy Fo n) x w = Ok (t, w') /\
    num_indeps t = n /\ num_deps t = 1%nat /\ num_abs t = (3 * n)%nat) /\
  (exists t w', fn_tape Fo (bench_eager Fo n) x w = Ok (t, w') /\
    num_indeps t = n /\ num_deps t = 1%nat /\ num_abs t = (3 * n)%nat) /\
  (exists t w', fn_tape Fo (bench_propagate Fo n) x w = Ok (t, w') /\
    num_indeps t = n /\ num_deps t = n /\ num_abs t = n).
Proof. exact bench_sizes. Qed.
Print Assumptions C80_sizes.

(** abs_normal_mul_left and abs_normal_mul_right run to their end, in every arithmetic, and return
    matrices of these sizes. *)
Theorem C80_products_return :
  forall (F : Type) (Fo : Fops F) red (n : nat) (w : world F), rayon red ->
  exists l r w', bench_products Fo red n w = Ok ((l, r), w') /\
    wf_mat l /\ m_rows l = 1%nat /\ m_cols l = (3 * n)%nat /\
    wf_mat r /\ m_rows r = (3 * n)%nat /\ m_cols r = 1%nat.
Proof. intros F Fo. exact (products_total Fo). Qed.
Print Assumptions C80_products_return.

(** Over the reals they are the products with the matrix L of the abs-normal form at the ones, although
    the tape was recorded at the zeros. *)
Theorem C80_products :
  forall red (n : nat) (w : world R), rayon red -> exists t w' N l r,
  fn_tape Rops (bench_lazy Rops n) (repeat 1 n) w = Ok (t, w') /\ abs_normal_tape Rops red t = Ok N /\ anf_of t N /\
  strictly_lower (f_lmat N) /\
  (exists w2, bench_products Rops red n w = Ok ((l, r), w2)) /\
  l = mm (m_const 1 (3 * n) 1) (f_lmat N) /\ r = mm (f_lmat N) (m_const (3 * n) 1 1).
Proof. exact products_value. Qed.
Print Assumptions C80_products.

(** generalized_jacobian: at the ones, along the ones, the matrix is zero, whatever the bits, and all
    but one of the comparisons of the fold are ties. *)
Theorem C80_generalized_jacobian :
  forall red (n : nat) (w : world R) (bits : list N), rayon red -> (1 <= n)%nat ->
  exists G w', generalized_jacobian Rops red (bench_eager Rops n) (repeat 1 n) (repeat 1 n) bits None w = Ok (G, w') /\
    g_hom G = m_const 1 n 0 /\ g_inh G = [0] /\ g_mult G = (n - 1)%nat.
Proof. exact eager_jacobian. Qed.
Print Assumptions C80_generalized_jacobian.

(** generalized_jacobian_chain: the same, with [None] for the number of checkpoints or any from 2 on. *)
Theorem C80_generalized_jacobian_chain :
  forall red est (n : nat) (w : world R) (k : option nat), rayon red -> (1 <= n)%nat -> accurate est 5 ->
  (2 <= match k with Some k => k | None => 4 end)%nat ->
  exists c, bench_chain Rops n = Ok c /\ exists G w',
    generalized_jacobian_chain Rops red est c (repeat 1 n) (repeat 1 n) k w = Ok (G, w') /\
    g_hom G = m_const 1 n 0 /\ g_inh G = [0] /\ g_mult G = (n - 1)%nat.
Proof. exact chain_jacobian. Qed.
Print Assumptions C80_generalized_jacobian_chain.

Example C80_example : rayon (@concat (nat * list R)) /\ accurate (fun a r => up (estimate a r)) 5 /\ length [-1; 1/2; 1/4] = 3%nat /\
  exists c, bench_chain Rops 3 = Ok c /\ eval_float Rops c [-1; 1/2; 1/4] world0 = Ok ([1/2], world0).
Proof.
  split; [apply rayon_exists|]. split; [apply accurate_up|]. split; [reflexivity|].
  destruct (C80_values 3 [-1; 1/2; 1/4] world0) as (y & c & E & _ & _ & V & A & e & He & ->); [lia|reflexivity|].
  exists c. split; [exact E|]. rewrite V.
  assert (Rmin (Rmax (1/2) 0) 1 = 1/2) as B by (rewrite Rmax_left, Rmin_left by lra; reflexivity).
  pose proof (A (1/2) ltac:(cbn; auto)) as A1. rewrite B in A1. cbn in He. destruct He as [<-|[<-|[<-|[]]]].
  - rewrite Rmax_right, Rmin_left in A1 by lra. lra.
  - now rewrite B.
  - rewrite Rmax_left, Rmin_left in A1 by lra. lra.
Qed.
