(** The optimisation loop of examples/floyd_warshall.rs. *)
From Coq Require Import List Arith ZArith Bool Lia.
From Verif Require Import Base Float Operation Tape AContext Methods Function Matrix Jacobian AbsNormal
  Checkpoint GenJac Build Programs Descent.
Import ListNotations.

(** What the program prints: a line "E = ...", a gradient, the line "quota = ..." *)
Inductive line (F : Type) : Type :=
| PrintE (e : F)
| PrintG (g : list F)
| PrintQuota (p : list F).
Arguments PrintE {F}. Arguments PrintG {F}. Arguments PrintQuota {F}.

Section FloydLoop.
Context {F : Type} (Fo : Fops F).
Context (red : list (list (nat * list F)) -> list (nat * list F)) (est : Z -> Z -> Z).
Context (n nlights : nat) (inf : F) (edges : list edge) (exits : list nat).

(** floyd_warshall.rs:190-227 [calculate_gradient]: its result has one column (fw_gradient), kept as
    a vector here *)
Definition fw_grad (params : list F) : M (world F) (list F) :=
  g <~ fw_gradient Fo red est n nlights inf edges exits params ;;
  mret (map (fun row => nth 0 row (f_zero Fo)) (m_dat g)).

(** The variables of the loop (floyd_warshall.rs:230-235) and the output so far. *)
Record fw_state : Type := mkFw {
  fs_params : list F;
  fs_grad : list F;
  fs_step : F;
  fs_out : list (line F)
}.

(** floyd_warshall.rs:237-250, the body of the loop; line 240 evaluates [params], not [params_new] *)
Definition fw_body (s : fw_state) : M (world F) fw_state :=
  params_new <~ mlift (v_sub Fo (fs_params s) (map (f_mul Fo (fs_step s)) (fs_grad s))) ;;
  e <~ fw_value Fo n nlights inf edges exits (fs_params s) ;;
  g_new <~ fw_grad params_new ;;
  params_diff <~ mlift (v_sub Fo params_new (fs_params s)) ;;
  g_diff <~ mlift (v_sub Fo g_new (fs_grad s)) ;;
  let step := f_div Fo (f_abs Fo (fdot Fo params_diff g_diff)) (norm_squared Fo g_diff) in
  mret (mkFw params_new g_new step (fs_out s ++ [PrintE (f_sqrt Fo e); PrintG g_new])).

(** floyd_warshall.rs:237 [while g.norm() > epsilon]; stops when [fuel] iterations are not enough,
    and tells whether the loop ended by itself *)
Fixpoint fw_loop (epsilon : F) (fuel : nat) (s : fw_state) : M (world F) (fw_state * bool) :=
  if f_ltb Fo epsilon (norm Fo (fs_grad s)) then
    match fuel with
    | O => mret (s, false)
    | S fuel' => s' <~ fw_body s ;; fw_loop epsilon fuel' s'
    end
  else mret (s, true).

(** floyd_warshall.rs:229-254: the rest of [main], from any initial values, initial step and
    epsilon; the last line is printed after the loop *)
Definition fw_main (epsilon step : F) (start : list F) (fuel : nat) : M (world F) (fw_state * bool) :=
  e <~ fw_value Fo n nlights inf edges exits start ;;
  g <~ fw_grad start ;;
  r <~ fw_loop epsilon fuel (mkFw start g step [PrintE (f_sqrt Fo e); PrintG g]) ;;
  if snd r then
    mret (mkFw (fs_params (fst r)) (fs_grad (fst r)) (fs_step (fst r))
            (fs_out (fst r) ++ [PrintQuota (fs_params (fst r))]), true)
  else mret r.
End FloydLoop.
Arguments mkFw {F}. Arguments fs_params {F}. Arguments fs_grad {F}. Arguments fs_step {F}. Arguments fs_out {F}.

(** floyd_warshall.rs:230, 232, 235: the example's own numbers *)
Definition ex_start {F : Type} (Fo : Fops F) : list F := repeat (f_div Fo (f_one Fo) (f_of_Z Fo 2)) 6.
Definition ex_epsilon {F : Type} (Fo : Fops F) : F := f_div Fo (f_one Fo) (f_of_Z Fo (10 ^ 10)).
Definition ex_step {F : Type} (Fo : Fops F) : F := f_div Fo (f_one Fo) (f_of_Z Fo 100000).
