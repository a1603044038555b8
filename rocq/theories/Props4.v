(** Property theorems C25-C29: the abs-normal form (vocabulary in AnfSpec.v). *)
From Coq Require Import Reals Lra List Arith ZArith Bool Lia SpecFloat.
From Verif Require Import Base Float Operation Tape AContext Methods Function Spec Param
  Instances ApiFacts3 RealInst FloatInst DerivSpec DerivFacts LinearFacts DerivFacts2 Matrix MatrixFacts AbsNormal
  AbsNormalFacts AnfSpec RVec AnfFacts AnfFacts2 Examples ExamplesR ExamplesAnf.
Import ListNotations.
Open Scope R_scope.

(** *** C25 Abs-normal form is a faithful rewriting.
    [anf_of t N]: N has the matrices of the four sub-tapes, a = z - L|z| and b = -Y|z|;
    [switching N dx zh]: zh = a + Z dx + L|zh|; [increment N dx zh] = b + J dx + Y|zh|. *)
Theorem C25_abs_normal_form_is_faithful :
  forall (t : tape R) (N : anf) (dx : list R),
  wf_tape t -> anf_of t N -> length dx = num_indeps t ->
  exists zh, switching N dx zh /\ (forall zh', switching N dx zh' -> zh' = zh) /\
    tape_forward Rops t dx = Ok (increment N dx zh).
Proof. exact anf_correct. Qed.
Print Assumptions C25_abs_normal_form_is_faithful.

(** Every tape has an abs-normal form (so the theorem is about every tape). *)
Theorem C25_abs_normal_form_exists :
  forall (t : tape R), wf_tape t -> exists N, anf_of t N.
Proof. exact anf_exists. Qed.
Print Assumptions C25_abs_normal_form_exists.

(** Together with C13 and C14: abs_normal(f, x) approximates f near x to first order, and is exact
    for piecewise affine f, however far h goes. *)
Theorem C25_first_order_approximation :
  forall red (f : func R) (x : list R) (w : world R) (t : tape R) (w' : world R),
  rayon red -> fn_tape Rops f x w = Ok (t, w') -> NoDup (t_deps t) -> abs_once t ->
  regular f x -> same_branches_near f x ->
  exists N y, abs_normal Rops red f x w = Ok N /\ tape_y t = Ok y /\
  forall e, 0 < e -> exists d, 0 < d /\ forall h, length h = length x -> nrm1 h < d ->
    exists y' zh, (forall w2, eval_float Rops f (vadd x h) w2 = Ok (y', w2)) /\
      switching N h zh /\ (forall zh', switching N h zh' -> zh' = zh) /\
      forall k, (k < length y)%nat ->
        Rabs (nth k y' 0 - nth k y 0 - nth k (increment N h zh) 0) <= e * nrm1 h.
Proof. exact abs_normal_linearisation. Qed.
Print Assumptions C25_first_order_approximation.

Theorem C25_exact_for_piecewise_affine :
  forall red (f : func R) (x : list R) (w : world R) (t : tape R) (w' : world R),
  rayon red -> fn_tape Rops f x w = Ok (t, w') -> NoDup (t_deps t) -> abs_once t ->
  piecewise_affine f x ->
  exists N y, abs_normal Rops red f x w = Ok N /\ tape_y t = Ok y /\
  forall h, length h = length x -> straight_f f \/ agree_f Rops f x (vadd x h) ->
    exists zh, switching N h zh /\ (forall zh', switching N h zh' -> zh' = zh) /\
      forall w2, eval_float Rops f (vadd x h) w2 = Ok (vadd y (increment N h zh), w2).
Proof. exact abs_normal_exact. Qed.
Print Assumptions C25_exact_for_piecewise_affine.

Example C25_example : exists t N, anf_of t N /\ wf_tape t /\ num_abs t = 2%nat /\ num_indeps t = 2%nat.
Proof. exact rx_pl_anf. Qed.

Example C25_example_function : exists t w', fn_tape Rops rx_pl [1; -2] world0 = Ok (t, w') /\
  NoDup (t_deps t) /\ abs_once t /\ num_abs t = 2%nat /\ piecewise_affine rx_pl [1; -2] /\ straight_f rx_pl.
Proof.
  destruct rx_pl_tape as (t & w' & E & _ & _ & _ & N & ND & AO). exists t, w'.
  do 4 (split; [auto|]). split; [apply rx_pl_affine|]. repeat split.
Qed.

(** *** C26 L is strictly lower triangular. *)
Theorem C26_L_strictly_lower_triangular :
  forall (t : tape R) (N : anf), wf_tape t -> anf_of t N -> strictly_lower (f_lmat N).
Proof. exact anf_lower. Qed.
Print Assumptions C26_L_strictly_lower_triangular.

Example C26_example : exists t N, anf_of t N /\ wf_tape t /\ num_abs t = 2%nat /\ num_indeps t = 2%nat.
Proof. exact rx_pl_anf. Qed.

(** *** C27 abs_normal returns the right dense matrices, whichever product it uses for them.
    [abs_once t]: no variable is passed to abs twice. *)
Theorem C27_abs_normal_is_right :
  forall red (f : func R) (x : list R) (w : world R) (t : tape R) (w' : world R),
  rayon red -> fn_tape Rops f x w = Ok (t, w') -> NoDup (t_deps t) -> abs_once t ->
  exists N, abs_normal Rops red f x w = Ok N /\ anf_of t N.
Proof. exact abs_normal_correct. Qed.
Print Assumptions C27_abs_normal_is_right.

(** In every arithmetic and without provisos it returns components of the documented sizes. *)
Theorem C27_returns_with_dimensions :
  forall (F : Type) (Fo : Fops F) red, rayon red -> forall (t : tape F), wf_tape t ->
  exists N, abs_normal_tape Fo red t = Ok N /\
    length (f_a N) = num_abs t /\ length (f_b N) = num_deps t /\
    (wf_mat (f_zmat N) /\ m_rows (f_zmat N) = num_abs t /\ m_cols (f_zmat N) = num_indeps t) /\
    (wf_mat (f_lmat N) /\ m_rows (f_lmat N) = num_abs t /\ m_cols (f_lmat N) = num_abs t) /\
    (wf_mat (f_jmat N) /\ m_rows (f_jmat N) = num_deps t /\ m_cols (f_jmat N) = num_indeps t) /\
    (wf_mat (f_ymat N) /\ m_rows (f_ymat N) = num_deps t /\ m_cols (f_ymat N) = num_abs t).
Proof. exact @abs_normal_total. Qed.
Print Assumptions C27_returns_with_dimensions.

(** Without the proviso it is wrong: for |x0| + |x0| at (1, 2) the first row of Z is zero, while
    the Z sub-tape itself says (1, 0). *)
Theorem C27_repeated_abs_refuted :
  exists t w' N a, fn_tape d64 ex_abs2 [lit 1; lit 2] world0 = Ok (t, w') /\
    abs_normal d64 (@concat _) ex_abs2 [lit 1; lit 2] world0 = Ok N /\ an_new t = Ok a /\
    f_zmat N = mkM 2 2 [[lit 0; lit 0]; [lit 1; lit 0]] /\
    mul_right d64 (@concat _) (z_tape a) (m_id d64 2) = Ok (mkM 2 2 [[lit 1; lit 0]; [lit 1; lit 0]]).
Proof.
  eexists _, _, _, _. split; [vm_compute; reflexivity|]. split; [vm_compute; reflexivity|].
  split; [vm_compute; reflexivity|]. split; vm_compute; reflexivity.
Qed.
Print Assumptions C27_repeated_abs_refuted.

Example C27_example : exists t w', fn_tape Rops rx_pl [1; -2] world0 = Ok (t, w') /\ wf_tape t /\
  num_indeps t = 2%nat /\ num_deps t = 1%nat /\ num_abs t = 2%nat /\ NoDup (t_deps t) /\ abs_once t.
Proof. exact rx_pl_tape. Qed.

(** *** C28 mul_left and mul_right multiply by the same matrix.
    [represents t M]: M has num_deps rows and num_indeps columns and the forward sweep of t is
    dx |-> M dx.  There is exactly one such M for every tape without abs. *)
Theorem C28_tape_is_a_matrix :
  forall (t : tape R), wf_tape t -> no_abs t ->
  exists M, represents t M /\ forall M', represents t M' -> M' = M.
Proof.
  exact (fun t W NA => ex_intro _ (tmat t) (conj (represented t W NA)
           (fun M' H => represents_unique t M' (tmat t) H (represented t W NA)))).
Qed.
Print Assumptions C28_tape_is_a_matrix.

Theorem C28_mul_right :
  forall red (t : tape R) (M B : matrix R), rayon red -> represents t M ->
  wf_mat B -> m_rows B = num_indeps t -> mul_right Rops red t B = Ok (mm M B).
Proof. exact mul_right_spec. Qed.
Print Assumptions C28_mul_right.

Theorem C28_mul_left :
  forall red (t : tape R) (M A : matrix R), rayon red -> wf_tape t -> no_abs t -> NoDup (t_deps t) ->
  represents t M -> wf_mat A -> m_cols A = num_deps t -> mul_left Rops red t A = Ok (mm A M).
Proof. exact mul_left_spec. Qed.
Print Assumptions C28_mul_left.

(** Repeated outputs: only the last of several entries for the same output counts
    ([seed_rows]). *)
Theorem C28_mul_left_repeated :
  forall red (t : tape R) (M A : matrix R), rayon red -> wf_tape t -> no_abs t -> represents t M ->
  wf_mat A -> m_cols A = num_deps t -> mul_left Rops red t A = Ok (mm (seed_rows (t_deps t) A) M).
Proof. exact mul_left_general. Qed.
Print Assumptions C28_mul_left_repeated.

Theorem C28_mul_right_wrong_size :
  forall (F : Type) (Fo : Fops F) red (t : tape F) (B : matrix F),
  m_rows B <> num_indeps t -> mul_right Fo red t B = Panic PAssert.
Proof. exact @mul_right_dim. Qed.
Print Assumptions C28_mul_right_wrong_size.

Theorem C28_mul_left_wrong_size :
  forall (F : Type) (Fo : Fops F) red (t : tape F) (A : matrix F),
  m_cols A <> num_deps t -> mul_left Fo red t A = Panic PAssert.
Proof. exact @mul_left_dim. Qed.
Print Assumptions C28_mul_left_wrong_size.

(** Without abs is no restriction: all four sub-tapes of every tape are well formed and abs-free,
    and their sizes are those of the matrices Z, L, J, Y. *)
Theorem C28_applies_to_the_subtapes :
  forall (t : tape R) (a : antape), wf_tape t -> an_new t = Ok a ->
  (forall s, In s [z_tape a; l_tape a; j_tape a; y_tape a] -> wf_tape s /\ no_abs s) /\
  num_indeps (z_tape a) = num_indeps t /\ num_deps (z_tape a) = num_abs t /\
  num_indeps (l_tape a) = num_abs t /\ num_deps (l_tape a) = num_abs t /\
  num_indeps (j_tape a) = num_indeps t /\ num_deps (j_tape a) = num_deps t /\
  num_indeps (y_tape a) = num_abs t /\ num_deps (y_tape a) = num_deps t.
Proof. exact subtapes_ok. Qed.
Print Assumptions C28_applies_to_the_subtapes.

Example C28_example : exists t M, wf_tape t /\ no_abs t /\ NoDup (t_deps t) /\ represents t M /\
  num_indeps t = 2%nat /\ num_deps t = 2%nat /\ t_ops t <> [].
Proof. exact rx_pl_sub. Qed.

(** *** C29 row and column. *)
Theorem C29_row :
  forall red (t : tape R) (M : matrix R) (i : nat), rayon red -> wf_tape t -> no_abs t ->
  NoDup (t_deps t) -> represents t M -> (i < num_deps t)%nat ->
  sub_row Rops red t i = Ok (mkM 1 (num_indeps t) [row M i]).
Proof. exact sub_row_spec. Qed.
Print Assumptions C29_row.

Theorem C29_row_out_of_range :
  forall red (t : tape R) (i : nat), (num_deps t <= i)%nat -> sub_row Rops red t i = Panic PIndex.
Proof. exact sub_row_over. Qed.
Print Assumptions C29_row_out_of_range.

(** column panics unless the matrix has exactly one column, in which case it is that column. *)
Theorem C29_column_refuted :
  forall red (t : tape R) (i : nat), num_indeps t <> 1%nat ->
  sub_column Rops red t i = Panic (if (i <? num_indeps t)%nat then PAssert else PIndex).
Proof. exact sub_column_panics. Qed.
Print Assumptions C29_column_refuted.

Theorem C29_column_single :
  forall red (t : tape R) (M : matrix R), rayon red -> represents t M -> num_indeps t = 1%nat ->
  sub_column Rops red t 0 = Ok M.
Proof. exact sub_column_one. Qed.
Print Assumptions C29_column_single.

Example C29_example : exists t M, wf_tape t /\ no_abs t /\ NoDup (t_deps t) /\ represents t M /\
  num_indeps t = 2%nat /\ num_deps t = 2%nat /\ t_ops t <> [].
Proof. exact rx_pl_sub. Qed.
