(** Property theorems C72 (when the drivers panic).  Vocabulary in DriverSpec.v. *)
From Coq Require Import List Arith ZArith NArith Bool SpecFloat.
From Verif Require Import Base Float FloatInst Operation Tape AContext Methods Function Spec SweepFacts Matrix MatrixFacts
  Jacobian GenJac CheckSpec CheckFacts Checkpoint DriverSpec DriverPanics Examples.
Import ListNotations.

(** *** C72 In every arithmetic - so for NaNs and infinities as well - the drivers return unless the
    function itself panics or a dimension is wrong. *)
Theorem C72_jacobian_forward :
  forall (F : Type) (Fo : Fops F) red, rayon red -> forall (f : func F) n m x w,
  fn_n f = Ok n -> fn_m f = Ok m ->
  (panics (jacobian_forward Fo red f x w) <->
   length x <> n \/ n <> 0 /\ (panics (eval_float Fo f x w) \/
                               exists y w', eval_float Fo f x w = Ok (y, w') /\ length y < m)).
Proof. exact @forward_driver_panics. Qed.
Print Assumptions C72_jacobian_forward.

Theorem C72_jacobian_reverse :
  forall (F : Type) (Fo : Fops F) red, rayon red -> forall (t : tape F), wf_tape t ->
  (panics (jacobian_reverse Fo red t) <-> num_deps t <> 0 /\ has_abs t).
Proof. exact @reverse_driver_panics. Qed.
Print Assumptions C72_jacobian_reverse.

Theorem C72_generalized_jacobian :
  forall (F : Type) (Fo : Fops F) red, rayon red -> forall (f : func F) n x dx bits next w,
  fn_n f = Ok n -> wf_next next ->
  (panics (generalized_jacobian Fo red f x dx bits next w) <->
   length x <> n \/ panics (eval_float Fo f x w) \/
   exists y w', eval_float Fo f x w = Ok (y, w') /\ (length dx <> n \/ ~ next_fits (length y) next)).
Proof. exact @gj_panics. Qed.
Print Assumptions C72_generalized_jacobian.

(** The results have the documented sizes; at most one switch per abs is counted. *)
Theorem C72_generalized_jacobian_sizes :
  forall (F : Type) (Fo : Fops F) red, rayon red -> forall (t : tape F) dx bits next,
  wf_tape t -> wf_next next -> length dx = num_indeps t -> next_fits (num_deps t) next ->
  exists G, generalized_jacobian_tape Fo red t dx bits next = Ok G /\ wf_mat (g_hom G) /\
    m_rows (g_hom G) = rows_out (num_deps t) next /\ m_cols (g_hom G) = num_indeps t /\
    length (g_inh G) = rows_out (num_deps t) next /\
    mult_in next <= g_mult G /\ g_mult G <= mult_in next + num_abs t.
Proof. exact @gj_tape_total. Qed.
Print Assumptions C72_generalized_jacobian_sizes.

(** The chain driver returns exactly if the chain's functions can be applied one after the other to
    plain numbers; then the result maps inputs to outputs. *)
Theorem C72_chain :
  forall (F : Type) (Fo : Fops F) red, rayon red -> forall est (c : func F) x dx k w,
  accurate est (Z.of_nat (chain_len c) + 1) -> (Z.of_nat (chain_len c) + 1 <= 2 ^ 32)%Z -> 2 <= k ->
  length dx = length x ->
  match generalized_jacobian_chain Fo red est c x dx (Some k) w with
  | Ok (G, _) => exists y, reaches Fo (fn_iter c) x y /\ wf_mat (g_hom G) /\
      m_rows (g_hom G) = length y /\ m_cols (g_hom G) = length x /\ length (g_inh G) = length y
  | Panic _ => forall y, ~ reaches Fo (fn_iter c) x y
  end.
Proof. exact @chain_driver_total. Qed.
Print Assumptions C72_chain.

(** |x| - y / z of one NaN, one zero and one infinity is evaluated and differentiated. *)
Definition ex_odd : func spec_float :=
  Simple 3 1 (Let1 UAbs 0 (Let2 BDiv 1 2 (Let2 BSub 3 4 (Ret [5])))).
Definition odd_point : list spec_float := [S754_nan; lit 0; S754_infinity true].

Example C72_example :
  @rayon (nat * list spec_float) (@concat _) /\
  (exists y w', eval_float d64 ex_odd odd_point world0 = Ok (y, w') /\ length y = 1) /\
  ~ panics (generalized_jacobian d64 (@concat _) ex_odd odd_point [lit 1; lit 1; lit 1] [0%N] None world0) /\
  panics (generalized_jacobian d64 (@concat _) ex_odd odd_point [lit 1; lit 1] [0%N] None world0) /\
  ~ panics (jacobian_forward d64 (@concat _) ex_odd odd_point world0) /\
  (exists t w', fn_tape d64 ex_odd odd_point world0 = Ok (t, w') /\ panics (jacobian_reverse d64 (@concat _) t)) /\
  (exists G w', generalized_jacobian_chain d64 (@concat _) (fun k _ => Z.max 1 (k / 2)) (Chain [ex_odd; Simple 1 1 (Ret [0])])
     odd_point [lit 1; lit 1; lit 1] (Some 2) world0 = Ok (G, w')).
Proof.
  split; [apply rayon_exists|].
  assert (exists y, eval_float d64 ex_odd odd_point world0 = Ok (y, world0) /\ length y = 1) as (y & E & L).
  { eexists. split; [vm_compute; reflexivity|reflexivity]. }
  split; [eauto|].
  split; [rewrite (C72_generalized_jacobian _ d64 _ rayon_exists ex_odd 3)|].
  { intros [H|[(p & H)|(y0 & w0 & H1 & [H|H])]]; try (vm_compute in H; congruence); congruence || (apply H; exact I). }
  { reflexivity. } { exact I. }
  split; [exists PAssert; vm_compute; reflexivity|].
  split; [rewrite (C72_jacobian_forward _ d64 _ rayon_exists ex_odd 3 1)|].
  { intros [H|(_ & [(p & H)|(y0 & w0 & H1 & H)])]; [apply H; reflexivity|congruence|].
    rewrite E in H1. injection H1 as <- _. rewrite L in H. inversion H. inversion H1. }
  { reflexivity. } { reflexivity. }
  split.
  - eexists _, _. split; [vm_compute; reflexivity|]. eexists. vm_compute. reflexivity.
  - eexists _, _. vm_compute. reflexivity.
Qed.
