(** Property theorems C86: rounding errors of the chain driver.  [along], [along_switching],
    [along_forward], [fits], [recorded] and [same_side] are in ChainBallSpec.v; [bounded],
    [bounded_mat], [decided], balls and [map_tape] as in parts 16 and 31. *)
From Coq Require Import Reals List Arith NArith ZArith Bool SpecFloat.
From Verif Require Import Base Float FloatInst Operation Tape AContext Methods Function Spec RealInst F64Facts TapeFacts CheckSpec EstF64 BallSpec BallFacts BallMain
  DerivSpec LinearFacts Matrix MatrixFacts AbsNormal AnfSpec RVec AnfFacts2 GenJac GenSpec DriverSpec GenBallSpec GenBallMain ChainBallSpec ChainBall.
Import ListNotations.
Local Open Scope R_scope.

(** *** C86 In any arithmetic the chain driver, with any number of checkpoints from two, computes what
    passing once through the tapes of its functions computes. *)
Theorem C86_tapes :
  forall {F : Type} (Fo : Fops F) red, rayon red ->
  forall est (c : func F) x dx k w ts,
  accurate est (Z.of_nat (chain_len c) + 1) -> (Z.of_nat (chain_len c) + 1 <= 2 ^ 32)%Z -> (2 <= k)%nat ->
  length dx = length x -> recorded Fo (fn_iter c) x dx ts ->
  exists G w', generalized_jacobian_chain Fo red est c x dx (Some k) w = Ok (G, w') /\ along Fo red ts x dx = Ok G.
Proof. exact @chain_is_along. Qed.
Print Assumptions C86_tapes.

(** Tapes that fit, at any doubles and in any direction: if the running error bounds decide all signs,
    every entry of the binary64 result is within its radius of the exact entry. *)
Theorem C86_error :
  forall T, libm_accurate T ->
  forall red redb redr, rayon red -> rayon redb -> rayon redr ->
  forall (ts : list (tape spec_float)) n x dx, fits ts n -> length x = n -> length dx = n ->
  exists db dr, along_switching Bops redb (map (map_tape point) ts) (map point x) (map point dx) = Ok db /\
    along_switching Rops redr (map (map_tape real_of) ts) (map real_of x) (map real_of dx) = Ok dr /\
    (Forall decided db -> exists G Gb Gr,
      along (f64ops T) red ts x dx = Ok G /\
      along Bops redb (map (map_tape point) ts) (map point x) (map point dx) = Ok Gb /\
      along Rops redr (map (map_tape real_of) ts) (map real_of x) (map real_of dx) = Ok Gr /\
      g_mult G = g_mult Gr /\ bounded_mat (g_hom G) (g_hom Gb) (g_hom Gr) /\ bounded (g_inh G) (g_inh Gb) (g_inh Gr)).
Proof. exact along_error. Qed.
Print Assumptions C86_error.

(** The driver applied to a chain of functions. *)
Theorem C86_chain :
  forall T, libm_accurate T ->
  forall red redb redr, rayon red -> rayon redb -> rayon redr ->
  forall est (c : func spec_float) x dx k w ts,
  accurate est (Z.of_nat (chain_len c) + 1) -> (Z.of_nat (chain_len c) + 1 <= 2 ^ 32)%Z -> (2 <= k)%nat ->
  length dx = length x -> recorded (f64ops T) (fn_iter c) x dx ts ->
  exists db dr, along_switching Bops redb (map (map_tape point) ts) (map point x) (map point dx) = Ok db /\
    along_switching Rops redr (map (map_tape real_of) ts) (map real_of x) (map real_of dx) = Ok dr /\
    (Forall decided db -> exists G w' Gb Gr,
      generalized_jacobian_chain (f64ops T) red est c x dx (Some k) w = Ok (G, w') /\
      along Bops redb (map (map_tape point) ts) (map point x) (map point dx) = Ok Gb /\
      along Rops redr (map (map_tape real_of) ts) (map real_of x) (map real_of dx) = Ok Gr /\
      g_mult G = g_mult Gr /\ bounded_mat (g_hom G) (g_hom Gb) (g_hom Gr) /\ bounded (g_inh G) (g_inh Gb) (g_inh Gr)).
Proof. exact chain_error. Qed.
Print Assumptions C86_chain.

(** What the exact entries are: those of the affine map that equals the tangents pushed through all
    tapes in every direction whose switching values lie on the selected sides. *)
Theorem C86_piece :
  forall red (ts : list (tape R)), rayon red -> Forall (fun t => NoDup (t_deps t) /\ abs_once t) ts ->
  forall n x dx G s, fits ts n -> length x = n -> length dx = n ->
  along Rops red ts x dx = Ok G -> along_switching Rops red ts x dx = Ok s ->
  g_mult G = zeros s /\
  forall v sv dv, length v = n -> along_switching Rops red ts x v = Ok sv -> Forall2 same_side s sv ->
    along_forward Rops ts x v = Ok dv -> vadd (mulv (g_hom G) v) (g_inh G) = dv.
Proof. exact along_piece. Qed.
Print Assumptions C86_piece.

(** f(x0, x1) = (|x0| - x1, x0) followed by g(u, v) = |u v| at (2, 3) in the direction (4, -9). *)
Example C86_example : libm_accurate libm_real /\
  recorded (f64ops libm_real) (fn_iter ch_chain) [lit 2; lit 3] [lit 4; lit (-9)] (ch_tapes (f64ops libm_real) (lit 2) (lit 3)) /\
  (exists db, along_switching Bops (@concat _) (map (map_tape point) (ch_tapes (f64ops libm_real) (lit 2) (lit 3)))
    (map point [lit 2; lit 3]) (map point [lit 4; lit (-9)]) = Ok db /\ Forall decided db /\ length db = 2%nat) /\
  Forall (fun t => NoDup (t_deps t) /\ abs_once t) (ch_tapes (f64ops libm_real) (lit 2) (lit 3)).
Proof. exact ch_full. Qed.
