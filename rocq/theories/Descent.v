(** The optimisation loop of examples/perceptron.rs. *)
From Coq Require Import List Arith ZArith Bool Lia.
From Verif Require Import Base Float Operation Tape AContext Methods Function Matrix Jacobian
  Build Programs.
Import ListNotations.

Section Descent.
Context {F : Type} (Fo : Fops F).
Context (red : list (list (nat * list F)) -> list (nat * list F)).

(** perceptron.rs:71-74 [gradient], with the tape it leaves behind.  The tape has one output, so the
    transposed Jacobian is one column: the first row of the Jacobian. *)
Definition gradient (t : tape F) (params : list F) : res (list F * tape F) :=
  t' <- tape_zero_order Fo t params ;;
  J <- jacobian_reverse Fo red t' ;;
  g <- get (m_dat J) 0 ;;
  Ok (g, t').

(** nalgebra's [norm_squared] and [norm]; the order of the sum is fixed, as in Matrix.v *)
Definition norm_squared (g : list F) : F := fdot Fo g g.
Definition norm (g : list F) : F := f_sqrt Fo (norm_squared g).

(** The variables of the loop (perceptron.rs:117-121), and the errors printed so far;
    [iterations] is their number. *)
Record descent : Type := mkDescent {
  gd_tape : tape F;
  gd_params : list F;
  gd_grad : list F;
  gd_step : F;
  gd_printed : list F
}.

(** perceptron.rs:123-141, the body of the loop *)
Definition descent_body (s : descent) : res descent :=
  params_new <- v_sub Fo (gd_params s) (map (f_mul Fo (gd_step s)) (gd_grad s)) ;;
  r <- gradient (gd_tape s) params_new ;;
  params_diff <- v_sub Fo params_new (gd_params s) ;;
  g_diff <- v_sub Fo (fst r) (gd_grad s) ;;
  let step := f_div Fo (f_abs Fo (fdot Fo params_diff g_diff)) (norm_squared g_diff) in
  t' <- tape_zero_order Fo (snd r) params_new ;;
  y <- tape_y t' ;;
  error <- get y 0 ;;
  Ok (mkDescent t' params_new (fst r) step (gd_printed s ++ [error])).

(** perceptron.rs:122 [while g.norm() > epsilon]; stops when [fuel] iterations are not enough, and
    tells whether the loop ended by itself *)
Fixpoint descent_loop (epsilon : F) (fuel : nat) (s : descent) : res (descent * bool) :=
  if f_ltb Fo epsilon (norm (gd_grad s)) then
    match fuel with
    | O => Ok (s, false)
    | S fuel' => s' <- descent_body s ;; descent_loop epsilon fuel' s'
    end
  else Ok (s, true).

(** perceptron.rs:76-141: [main] up to the end of the loop, from any initial values, initial step
    and epsilon *)
Definition perceptron_main (epsilon step : F) (start : list F) (fuel : nat)
  : M (world F) (descent * bool) :=
  t <~ record0 Fo (xor_fn Fo) ;;
  r <~ mlift (gradient t start) ;;
  mlift (descent_loop epsilon fuel (mkDescent (snd r) start (fst r) step [])).

(** perceptron.rs:97-115: the initial values *)
Definition perceptron_start : list F :=
  map (f_of_Z Fo) [-1; -1; 1; 1; 0; 0; 1; 1; 0]%Z.
End Descent.
Arguments mkDescent {F}. Arguments gd_tape {F}. Arguments gd_params {F}. Arguments gd_grad {F}.
Arguments gd_step {F}. Arguments gd_printed {F}.
