(** Property theorems C87: the order of summation in dense matrix-vector products.  [order],
    [order_of], [valid], [sum_by], [mulv_by], the drivers with orders ([abs_normal_by], [gj_by],
    [generalized_jacobian_chain_by], [along_by]), [same_anf] and [same_hom] are in OrderSpec.v. *)
From Coq Require Import Reals List Arith NArith ZArith Bool SpecFloat Permutation.
From Verif Require Import Base Float FloatInst Operation Tape AContext Methods Function Spec RealInst F64Facts TapeFacts CheckSpec EstF64 BallSpec BallFacts BallMain
  DerivSpec LinearFacts Matrix MatrixFacts AbsNormal AnfSpec RVec AnfFacts2 GenJac GenSpec DriverSpec GenBallSpec GenBallMain ChainBallSpec ChainBall
  OrderSpec OrderFacts OrderMain.
Import ListNotations.
Local Open Scope R_scope.

(** *** C87 The order the other theorems use is one of the orders considered here. *)
Theorem C87_instance :
  forall {F : Type} (Fo : Fops F) (A : matrix F) v, wf_mat A ->
  mulv_by Fo (fun n _ => backward 0 n) A v = m_mulv Fo A v.
Proof. exact @mulv_backward. Qed.
Print Assumptions C87_instance.
Theorem C87_orders : valid (fun n _ => backward 0 n) /\ valid (fun n _ => forward n).
Proof. exact (conj (fun n _ => backward_valid n) (fun n _ => forward_valid n)). Qed.
Print Assumptions C87_orders.

(** In exact arithmetic no driver notices the order. *)
Theorem C87_exact :
  forall red o, valid2 o ->
  (forall t, abs_normal_by Rops red o t = abs_normal_tape Rops red t) /\
  (forall t dx bits next, gj_by Rops red o t dx bits next = generalized_jacobian_tape Rops red t dx bits next).
Proof. exact (fun red o HV => conj (fun t => abs_normal_exact red o t HV) (fun t dx bits next => gj_exact red o t dx bits next HV)). Qed.
Print Assumptions C87_exact.
Theorem C87_exact_chain :
  forall red os est (c : func R) x dx k w, (forall i, valid2 (os i)) ->
  generalized_jacobian_chain_by Rops red os est c x dx k w = generalized_jacobian_chain Rops red est c x dx k w.
Proof. exact chain_exact. Qed.
Print Assumptions C87_exact_chain.

(** In every arithmetic the matrices, the multiplicity and the panics do not depend on the order; only
    the constant vectors do. *)
Theorem C87_abs_normal :
  forall {F : Type} (Fo : Fops F) red o t,
  match abs_normal_by Fo red o t, abs_normal_tape Fo red t with
  | Ok N, Ok N' => same_anf N N'
  | Panic p, Panic q => p = q
  | _, _ => False
  end.
Proof. exact @abs_normal_matrices. Qed.
Print Assumptions C87_abs_normal.
Theorem C87_homogeneous :
  forall {F : Type} (Fo : Fops F) red o t dx bits next,
  match gj_by Fo red o t dx bits next, generalized_jacobian_tape Fo red t dx bits next with
  | Ok G, Ok G' => same_hom G G'
  | Panic p, Panic q => p = q
  | _, _ => False
  end.
Proof. exact @gj_homogeneous. Qed.
Print Assumptions C87_homogeneous.
Theorem C87_homogeneous_chain :
  forall {F : Type} (Fo : Fops F) red, rayon red ->
  forall os est (c : func F) x dx k w ts,
  accurate est (Z.of_nat (chain_len c) + 1) -> (Z.of_nat (chain_len c) + 1 <= 2 ^ 32)%Z -> (2 <= k)%nat ->
  length dx = length x -> recorded Fo (fn_iter c) x dx ts ->
  exists G w1 G' w2, generalized_jacobian_chain_by Fo red os est c x dx (Some k) w = Ok (G, w1) /\
    generalized_jacobian_chain Fo red est c x dx (Some k) w = Ok (G', w2) /\ same_hom G G'.
Proof. exact @chain_by_same. Qed.
Print Assumptions C87_homogeneous_chain.

(** The error bounds of C81 and C86 hold with any order, if the bounds are summed in the same order;
    the exact result they refer to does not depend on it. *)
Theorem C87_abs_normal_error :
  forall T, libm_accurate T ->
  forall red redb redr, rayon red -> rayon redb -> rayon redr ->
  forall o (t : tape spec_float) x t64 tb tr, valid2 o -> wf_tape t -> length x = num_indeps t -> replays T t x t64 tb tr ->
  exists N Nb Nr,
    abs_normal_by (f64ops T) red o t64 = Ok N /\ abs_normal_by Bops redb o tb = Ok Nb /\ abs_normal_tape Rops redr tr = Ok Nr /\
    bounded_mat (f_zmat N) (f_zmat Nb) (f_zmat Nr) /\ bounded_mat (f_lmat N) (f_lmat Nb) (f_lmat Nr) /\
    bounded_mat (f_jmat N) (f_jmat Nb) (f_jmat Nr) /\ bounded_mat (f_ymat N) (f_ymat Nb) (f_ymat Nr) /\
    bounded (f_a N) (f_a Nb) (f_a Nr) /\ bounded (f_b N) (f_b Nb) (f_b Nr).
Proof. exact abs_normal_by_error. Qed.
Print Assumptions C87_abs_normal_error.
Theorem C87_error :
  forall T, libm_accurate T ->
  forall red redb redr, rayon red -> rayon redb -> rayon redr ->
  forall o (t : tape spec_float) x t64 tb tr, valid2 o -> wf_tape t -> length x = num_indeps t -> replays T t x t64 tb tr ->
  forall dx, length dx = num_indeps t ->
  forall bits db, switching_values Bops redb tb (map point dx) = Ok db -> Forall decided db ->
  exists G Gb Gr,
    gj_by (f64ops T) red o t64 dx bits None = Ok G /\
    gj_by Bops redb o tb (map point dx) bits None = Ok Gb /\
    generalized_jacobian_tape Rops redr tr (map real_of dx) bits None = Ok Gr /\
    g_mult G = g_mult Gr /\ bounded_mat (g_hom G) (g_hom Gb) (g_hom Gr) /\ bounded (g_inh G) (g_inh Gb) (g_inh Gr).
Proof. exact gj_by_error. Qed.
Print Assumptions C87_error.
Theorem C87_chain_error :
  forall T, libm_accurate T ->
  forall red redb redr, rayon red -> rayon redb -> rayon redr ->
  forall os est (c : func spec_float) x dx k w ts, (forall i, valid2 (os i)) ->
  accurate est (Z.of_nat (chain_len c) + 1) -> (Z.of_nat (chain_len c) + 1 <= 2 ^ 32)%Z -> (2 <= k)%nat ->
  length dx = length x -> recorded (f64ops T) (fn_iter c) x dx ts ->
  exists db, along_switching Bops redb (map (map_tape point) ts) (map point x) (map point dx) = Ok db /\
    (Forall decided db -> exists G w' Gb Gr,
      generalized_jacobian_chain_by (f64ops T) red os est c x dx (Some k) w = Ok (G, w') /\
      along_by Bops redb os 0 (map (map_tape point) ts) (map point x) (map point dx) = Ok Gb /\
      along Rops redr (map (map_tape real_of) ts) (map real_of x) (map real_of dx) = Ok Gr /\
      g_mult G = g_mult Gr /\ bounded_mat (g_hom G) (g_hom Gb) (g_hom Gr) /\ bounded (g_inh G) (g_inh Gb) (g_inh Gr)).
Proof. exact chain_by_error. Qed.
Print Assumptions C87_chain_error.

(** Two valid orders, two different doubles: 1 + 2^53 - 2^53. *)
Example C87_example :
  order_of 3 (forward 3) /\ order_of 3 (backward 0 3) /\ order_of 3 (Plus (Plus (Prod 2) Nought) (Plus (Prod 0) (Prod 1))) /\
  sum_by d64 (forward 3) [lit 1; lit (2 ^ 53); lit (- 2 ^ 53)] [lit 1; lit 1; lit 1] = lit 0 /\
  sum_by d64 (backward 0 3) [lit 1; lit (2 ^ 53); lit (- 2 ^ 53)] [lit 1; lit 1; lit 1] = lit 1.
Proof.
  split; [apply forward_valid|]. split; [apply backward_valid|]. split.
  - unfold order_of. cbn. apply (Permutation_cons_append [0; 1]%nat 2%nat).
  - split; vm_compute; reflexivity.
Qed.
