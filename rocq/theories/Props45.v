(** Property theorems C96: fused multiply-adds in dense matrix-vector products.  [forder],
    [forder_of], [fvalid], [sum_fby], [mulv_fby], the drivers with such orders ([abs_normal_fby],
    [gj_fby], [generalized_jacobian_chain_fby], [along_fby]), [r_fma], [rounds_once] and [b_fma] are
    in FmaSpec.v; [sf_fma] (Flocq's fused multiply-add) is in FmaFacts.v; [same_anf] and [same_hom] in
    OrderSpec.v. *)
From Coq Require Import Reals List Arith NArith ZArith Bool SpecFloat Permutation.
From Verif Require Import Base Float FloatInst Operation Tape AContext Methods Function Spec RealInst F64Facts TapeFacts CheckSpec EstF64 BallSpec BallFacts BallMain
  DerivSpec LinearFacts Matrix MatrixFacts AbsNormal AnfSpec RVec AnfFacts2 GenJac GenSpec DriverSpec GenBallSpec GenBallMain ChainBallSpec ChainBall
  OrderSpec OrderFacts OrderMain FmaSpec FmaFacts FmaMain.
Import ListNotations.
Local Open Scope R_scope.

(** *** C96 Orders without fused products are those of C87; orders that fuse every product exist. *)
Theorem C96_instances :
  (forall {F : Type} (Fo : Fops F) fma s A v, mulv_fby Fo fma (fun n i => unfused (s n i)) A v = mulv_by Fo s A v) /\
  (forall s, valid s -> fvalid (fun n i => unfused (s n i))) /\ fvalid (fun n _ => all_fused n).
Proof. exact (conj (@mulv_unfused) (conj unfused_valid (fun n _ => all_fused_valid n))). Qed.
Print Assumptions C96_instances.

(** In exact arithmetic no driver notices the fusing. *)
Theorem C96_exact :
  forall red o, fvalid2 o ->
  (forall t, abs_normal_fby Rops r_fma red o t = abs_normal_tape Rops red t) /\
  (forall t dx bits next, gj_fby Rops r_fma red o t dx bits next = generalized_jacobian_tape Rops red t dx bits next).
Proof. exact (fun red o HV => conj (fun t => abs_normal_fexact red o t HV) (fun t dx bits next => gj_fexact red o t dx bits next HV)). Qed.
Print Assumptions C96_exact.
Theorem C96_exact_chain :
  forall red os est (c : func R) x dx k w, (forall i, fvalid2 (os i)) ->
  generalized_jacobian_chain_fby Rops r_fma red os est c x dx k w = generalized_jacobian_chain Rops red est c x dx k w.
Proof. exact chain_fexact. Qed.
Print Assumptions C96_exact_chain.

(** In every arithmetic, whatever the fused operation returns, the matrices, the multiplicity and the
    panics are the same; only the constant vectors can differ. *)
Theorem C96_abs_normal :
  forall {F : Type} (Fo : Fops F) fma red o t,
  match abs_normal_fby Fo fma red o t, abs_normal_tape Fo red t with
  | Ok N, Ok N' => same_anf N N'
  | Panic p, Panic q => p = q
  | _, _ => False
  end.
Proof. exact @abs_normal_fmatrices. Qed.
Print Assumptions C96_abs_normal.
Theorem C96_homogeneous :
  forall {F : Type} (Fo : Fops F) fma red o t dx bits next,
  match gj_fby Fo fma red o t dx bits next, generalized_jacobian_tape Fo red t dx bits next with
  | Ok G, Ok G' => same_hom G G'
  | Panic p, Panic q => p = q
  | _, _ => False
  end.
Proof. exact @gj_fhomogeneous. Qed.
Print Assumptions C96_homogeneous.
Theorem C96_homogeneous_chain :
  forall {F : Type} (Fo : Fops F) fma red, rayon red ->
  forall os est (c : func F) x dx k w ts,
  accurate est (Z.of_nat (chain_len c) + 1) -> (Z.of_nat (chain_len c) + 1 <= 2 ^ 32)%Z -> (2 <= k)%nat ->
  length dx = length x -> recorded Fo (fn_iter c) x dx ts ->
  exists G w1 G' w2, generalized_jacobian_chain_fby Fo fma red os est c x dx (Some k) w = Ok (G, w1) /\
    generalized_jacobian_chain Fo red est c x dx (Some k) w = Ok (G', w2) /\ same_hom G G'.
Proof. exact @chain_fsame. Qed.
Print Assumptions C96_homogeneous_chain.

(** A fused multiply-add rounds once; Flocq's does. *)
Theorem C96_fused : rounds_once sf_fma.
Proof. exact fma_rounds_once. Qed.
Print Assumptions C96_fused.

(** The error bounds hold for any fused operation that rounds once. *)
Theorem C96_abs_normal_error :
  forall T, libm_accurate T ->
  forall red redb redr fma, rounds_once fma -> rayon red -> rayon redb -> rayon redr ->
  forall o (t : tape spec_float) x t64 tb tr, fvalid2 o -> wf_tape t -> length x = num_indeps t -> replays T t x t64 tb tr ->
  exists N Nb Nr,
    abs_normal_fby (f64ops T) fma red o t64 = Ok N /\ abs_normal_fby Bops b_fma redb o tb = Ok Nb /\ abs_normal_tape Rops redr tr = Ok Nr /\
    bounded_mat (f_zmat N) (f_zmat Nb) (f_zmat Nr) /\ bounded_mat (f_lmat N) (f_lmat Nb) (f_lmat Nr) /\
    bounded_mat (f_jmat N) (f_jmat Nb) (f_jmat Nr) /\ bounded_mat (f_ymat N) (f_ymat Nb) (f_ymat Nr) /\
    bounded (f_a N) (f_a Nb) (f_a Nr) /\ bounded (f_b N) (f_b Nb) (f_b Nr).
Proof. exact abs_normal_fby_error. Qed.
Print Assumptions C96_abs_normal_error.
Theorem C96_error :
  forall T, libm_accurate T ->
  forall red redb redr fma, rounds_once fma -> rayon red -> rayon redb -> rayon redr ->
  forall o (t : tape spec_float) x t64 tb tr, fvalid2 o -> wf_tape t -> length x = num_indeps t -> replays T t x t64 tb tr ->
  forall dx, length dx = num_indeps t ->
  forall bits db, switching_values Bops redb tb (map point dx) = Ok db -> Forall decided db ->
  exists G Gb Gr,
    gj_fby (f64ops T) fma red o t64 dx bits None = Ok G /\
    gj_fby Bops b_fma redb o tb (map point dx) bits None = Ok Gb /\
    generalized_jacobian_tape Rops redr tr (map real_of dx) bits None = Ok Gr /\
    g_mult G = g_mult Gr /\ bounded_mat (g_hom G) (g_hom Gb) (g_hom Gr) /\ bounded (g_inh G) (g_inh Gb) (g_inh Gr).
Proof. exact gj_fby_error. Qed.
Print Assumptions C96_error.
Theorem C96_chain_error :
  forall T, libm_accurate T ->
  forall red redb redr fma, rounds_once fma -> rayon red -> rayon redb -> rayon redr ->
  forall os est (c : func spec_float) x dx k w ts, (forall i, fvalid2 (os i)) ->
  accurate est (Z.of_nat (chain_len c) + 1) -> (Z.of_nat (chain_len c) + 1 <= 2 ^ 32)%Z -> (2 <= k)%nat ->
  length dx = length x -> recorded (f64ops T) (fn_iter c) x dx ts ->
  exists db, along_switching Bops redb (map (map_tape point) ts) (map point x) (map point dx) = Ok db /\
    (Forall decided db -> exists G w' Gb Gr,
      generalized_jacobian_chain_fby (f64ops T) fma red os est c x dx (Some k) w = Ok (G, w') /\
      along_fby Bops b_fma redb os 0 (map (map_tape point) ts) (map point x) (map point dx) = Ok Gb /\
      along Rops redr (map (map_tape real_of) ts) (map real_of x) (map real_of dx) = Ok Gr /\
      g_mult G = g_mult Gr /\ bounded_mat (g_hom G) (g_hom Gb) (g_hom Gr) /\ bounded (g_inh G) (g_inh Gb) (g_inh Gr)).
Proof. exact chain_fby_error. Qed.
Print Assumptions C96_chain_error.

(** (2^27 + 1)^2 - (2^54 + 2^28): fused it is exact, with the product rounded first it is zero. *)
Example C96_example :
  forder_of 2 (all_fused 2) /\ forder_of 2 (unfused (forward 2)) /\ forder_of 3 (FPlus (Fused 2 (FProd 0)) (Fused 1 FNought)) /\
  sum_fby d64 sf_fma (all_fused 2) [lit (- (2 ^ 54 + 2 ^ 28)); lit (2 ^ 27 + 1)] [lit 1; lit (2 ^ 27 + 1)] = lit 1 /\
  sum_fby d64 sf_fma (unfused (forward 2)) [lit (- (2 ^ 54 + 2 ^ 28)); lit (2 ^ 27 + 1)] [lit 1; lit (2 ^ 27 + 1)] = lit 0.
Proof.
  split; [apply all_fused_valid|]. split; [apply (unfused_valid (fun n _ => forward n) (fun n _ => forward_valid n) 2%nat 0%nat)|]. split.
  - unfold forder_of. cbn. etransitivity; [apply perm_swap|]. apply perm_skip, perm_swap.
  - split; vm_compute; reflexivity.
Qed.
