(** Property theorems, part 31: rounding errors of the nonsmooth drivers.  As in part 16,
    [replays T t x t64 tb tr] is the tape replayed at the doubles [x] in binary64, in running error
    bounds and exactly, and [bounded y b z]: wherever the running bound says (c, r), the exact result
    is c and the binary64 result a finite double within r of it.  [bounded_mat], [decided],
    [switching_values], [gj_no_exit] and [same_gjac] are in GenBallSpec.v. *)
From Coq Require Import Reals List Arith NArith ZArith Bool SpecFloat.
From Verif Require Import Base Float FloatInst Operation Tape AContext Methods Function Spec RealInst F64Facts BallSpec BallFacts BallMain
  DerivSpec LinearFacts Matrix MatrixFacts AbsNormal AnfSpec RVec AnfFacts2 GenJac GenSpec DriverSpec GenBallSpec GenBallMain.
Import ListNotations.
Local Open Scope R_scope.

(** *** C81 Every entry of the abs-normal form. *)
Theorem C81_abs_normal :
  forall T, libm_accurate T ->
  forall red redb redr, rayon red -> rayon redb -> rayon redr ->
  forall (t : tape spec_float) (x : list spec_float) t64 tb tr,
  wf_tape t -> length x = num_indeps t -> replays T t x t64 tb tr ->
  exists N Nb Nr,
    abs_normal_tape (f64ops T) red t64 = Ok N /\ abs_normal_tape Bops redb tb = Ok Nb /\ abs_normal_tape Rops redr tr = Ok Nr /\
    bounded_mat (f_zmat N) (f_zmat Nb) (f_zmat Nr) /\ bounded_mat (f_lmat N) (f_lmat Nb) (f_lmat Nr) /\
    bounded_mat (f_jmat N) (f_jmat Nb) (f_jmat Nr) /\ bounded_mat (f_ymat N) (f_ymat Nb) (f_ymat Nr) /\
    bounded (f_a N) (f_a Nb) (f_a Nr) /\ bounded (f_b N) (f_b Nb) (f_b Nr).
Proof. exact abs_normal_error. Qed.
Print Assumptions C81_abs_normal.

(** The numbers whose signs the generalized Jacobian goes by; the exact ones are the switching
    values of the abs-normal form. *)
Theorem C81_switching_values :
  forall T, libm_accurate T ->
  forall red redb redr, rayon red -> rayon redb -> rayon redr ->
  forall (t : tape spec_float) (x : list spec_float) t64 tb tr,
  wf_tape t -> length x = num_indeps t -> replays T t x t64 tb tr ->
  forall dx, length dx = num_indeps t ->
  exists dz db dr,
    switching_values (f64ops T) red t64 dx = Ok dz /\ switching_values Bops redb tb (map point dx) = Ok db /\
    switching_values Rops redr tr (map real_of dx) = Ok dr /\ bounded dz db dr /\
    forall N, anf_of tr N -> switching N (map real_of dx) dr.
Proof. exact switching_error. Qed.
Print Assumptions C81_switching_values.

(** Where the running bounds decide those signs, binary64 selects the piece exact arithmetic selects,
    counts the same zeros, and every entry is within its radius of the exact entry. *)
Theorem C81_generalized_jacobian :
  forall T, libm_accurate T ->
  forall red redb redr, rayon red -> rayon redb -> rayon redr ->
  forall (t : tape spec_float) (x : list spec_float) t64 tb tr,
  wf_tape t -> length x = num_indeps t -> replays T t x t64 tb tr ->
  forall dx, length dx = num_indeps t ->
  forall bits db, switching_values Bops redb tb (map point dx) = Ok db -> Forall decided db ->
  exists G Gb Gr,
    generalized_jacobian_tape (f64ops T) red t64 dx bits None = Ok G /\
    generalized_jacobian_tape Bops redb tb (map point dx) bits None = Ok Gb /\
    generalized_jacobian_tape Rops redr tr (map real_of dx) bits None = Ok Gr /\
    g_mult G = g_mult Gr /\ bounded_mat (g_hom G) (g_hom Gb) (g_hom Gr) /\ bounded (g_inh G) (g_inh Gb) (g_inh Gr).
Proof. exact gj_error. Qed.
Print Assumptions C81_generalized_jacobian.

(** What the exact entries are: those of the affine map that equals the exact forward sweep in every
    direction with the selected signs. *)
Theorem C81_piece :
  forall T, libm_accurate T ->
  forall red redb redr, rayon red -> rayon redb -> rayon redr ->
  forall (t : tape spec_float) (x : list spec_float) t64 tb tr,
  wf_tape t -> length x = num_indeps t -> replays T t x t64 tb tr ->
  forall dx, length dx = num_indeps t ->
  forall bits db N, switching_values Bops redb tb (map point dx) = Ok db -> Forall decided db ->
  NoDup (t_deps t) -> abs_once t -> anf_of tr N ->
  exists G Gb Gr dr sigma,
    generalized_jacobian_tape (f64ops T) red t64 dx bits None = Ok G /\
    generalized_jacobian_tape Bops redb tb (map point dx) bits None = Ok Gb /\
    generalized_jacobian_tape Rops redr tr (map real_of dx) bits None = Ok Gr /\
    g_mult G = zeros dr /\ bounded_mat (g_hom G) (g_hom Gb) (g_hom Gr) /\ bounded (g_inh G) (g_inh Gb) (g_inh Gr) /\
    switching N (map real_of dx) dr /\ selected bits dr sigma /\
    forall dx' dy', length dx' = num_indeps t -> compatible N sigma dx' ->
      tape_forward Rops tr dx' = Ok dy' -> vadd (mulv (g_hom Gr) dx') (g_inh Gr) = dy'.
Proof. exact gj_error_piece. Qed.
Print Assumptions C81_piece.

(** The driver applied to a function, whatever its control flow: the tape it records is its own replay. *)
Theorem C81_function :
  forall T red redb redr (f : func spec_float) x dx bits w t w', libm_accurate T ->
  rayon red -> rayon redb -> rayon redr -> fn_n f = Ok (length x) -> length dx = length x ->
  fn_tape (f64ops T) f x w = Ok (t, w') ->
  exists tb tr db, replays T t x t tb tr /\ switching_values Bops redb tb (map point dx) = Ok db /\
    (Forall decided db -> exists G Gb Gr,
      generalized_jacobian (f64ops T) red f x dx bits None w = Ok (G, w') /\
      generalized_jacobian_tape Bops redb tb (map point dx) bits None = Ok Gb /\
      generalized_jacobian_tape Rops redr tr (map real_of dx) bits None = Ok Gr /\
      g_mult G = g_mult Gr /\ bounded_mat (g_hom G) (g_hom Gb) (g_hom Gr) /\ bounded (g_inh G) (g_inh Gb) (g_inh Gr)).
Proof. exact gj_function_error. Qed.
Print Assumptions C81_function.

(** In binary64 the two fixed-point loops may stop as soon as an iterate repeats: without the early
    exits the result is the same but for the signs of zeros, infinities and NaNs included. *)
Theorem C81_early_exit :
  forall T red, rayon red ->
  forall (t : tape spec_float) dx bits next, wf_tape t -> wf_next next -> next_fits (num_deps t) next ->
  length dx = num_indeps t ->
  exists G H, generalized_jacobian_tape (f64ops T) red t dx bits next = Ok G /\
    gj_no_exit (f64ops T) red t dx bits next = Ok H /\ same_gjac G H.
Proof. exact early_exit. Qed.
Print Assumptions C81_early_exit.

(** |x0 x1 - 7| + |x1 - |x0|| at (2, 3) in the direction (4, -9): all three signs are decided. *)
Example C81_example :
  libm_accurate libm_real /\ wf_tape (ab_tape S754_nan (lit 7)) /\ abs_once (ab_tape S754_nan (lit 7)) /\
  NoDup (t_deps (ab_tape S754_nan (lit 7))) /\
  exists t64 tb tr db, replays libm_real (ab_tape S754_nan (lit 7)) [lit 2; lit 3] t64 tb tr /\
    switching_values Bops (@concat _) tb (map point [lit 4; lit (-9)]) = Ok db /\ Forall decided db /\
    db = [Some (-7, 0); Some (6, 0); Some (-12, 0)].
Proof. exact ab_full. Qed.
