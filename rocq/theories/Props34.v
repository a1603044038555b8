(** Property theorems C84 (what an output can depend on) and C85 (how NaNs spread). *)
From Coq Require Import Reals List Arith ZArith Bool Lia SpecFloat.
From Verif Require Import Base Float Operation Tape AContext Methods Function Spec FloatInst Instances
  Matrix MatrixFacts Jacobian RealInst JacobianFacts FunctionFacts ReplayFacts ApiFacts3 LinearFacts SparseSpec SparseFacts SparseMain.
Import ListNotations.
Local Open Scope nat_scope.

(** *** C84 An output depends only on the inputs it is connected with by the recorded operations,
    in every arithmetic. *)
Theorem C84_values :
  forall (F : Type) (Fo : Fops F) (t : tape F) (x x' : list F) (t1 t2 : tape F) (y y' : list F) (k : nat),
  wf_tape t -> tape_zero_order Fo t x = Ok t1 -> tape_zero_order Fo t x' = Ok t2 ->
  tape_y t1 = Ok y -> tape_y t2 = Ok y' -> k < num_deps t ->
  (forall i, connected t i k -> nth_error x i = nth_error x' i) ->
  nth_error y k = nth_error y' k /\ nth_error y k <> None.
Proof. exact @values_connected. Qed.
Print Assumptions C84_values.

(** The derivative of an output along a direction depends only on the components of the direction
    at connected inputs. *)
Theorem C84_directional :
  forall (F : Type) (Fo : Fops F) (t : tape F) (dx dx' dy dy' : list F) (k : nat),
  wf_tape t -> length dx = num_indeps t -> length dx' = num_indeps t ->
  tape_forward Fo t dx = Ok dy -> tape_forward Fo t dx' = Ok dy' -> k < num_deps t ->
  (forall i, connected t i k -> nth_error dx i = nth_error dx' i) ->
  nth_error dy k = nth_error dy' k /\ nth_error dy k <> None.
Proof. exact @tangents_connected. Qed.
Print Assumptions C84_directional.

(** The adjoint of an input depends only on the weights of connected outputs. *)
Theorem C84_adjoint :
  forall (F : Type) (Fo : Fops F) (t : tape F) (ybar ybar' xbar xbar' : list F) (i : nat),
  wf_tape t -> length ybar = num_deps t -> length ybar' = num_deps t ->
  tape_reverse Fo t ybar = Ok xbar -> tape_reverse Fo t ybar' = Ok xbar' -> i < num_indeps t ->
  (forall k, connected t i k -> nth_error ybar k = nth_error ybar' k) ->
  nth_error xbar i = nth_error xbar' i /\ nth_error xbar i <> None.
Proof. exact @adjoints_connected. Qed.
Print Assumptions C84_adjoint.

(** In exact arithmetic both Jacobian drivers have a zero wherever there is no connection. *)
Theorem C84_forward_zeros :
  forall (red : list (list (nat * list R)) -> list (nat * list R)) (f : func R) (x : list R)
         (w : world R) (t : tape R) (w' : world R) (n m : nat),
  rayon red -> fn_n f = Ok n -> fn_m f = Ok m -> length x = n ->
  fn_tape Rops f x w = Ok (t, w') -> num_deps t = m ->
  exists J, jacobian_forward Rops red f x w = Ok J /\
    forall i k, i < n -> k < m -> ~ connected t i k -> ent Rops J k i = 0%R.
Proof. exact @jacobian_forward_zero. Qed.
Print Assumptions C84_forward_zeros.

Theorem C84_reverse_zeros :
  forall (red : list (list (nat * list R)) -> list (nat * list R)) (t : tape R),
  rayon red -> wf_tape t -> no_abs t -> NoDup (t_deps t) ->
  exists J, jacobian_reverse Rops red t = Ok J /\
    forall i k, i < num_indeps t -> k < num_deps t -> ~ connected t i k -> ent Rops J k i = 0%R.
Proof. exact @jacobian_reverse_zero. Qed.
Print Assumptions C84_reverse_zeros.

(** In binary64 the zeros are not zeros: for f(x0, x1) = (x0 + x0, x1 / x1) at (1, 2^-540) both
    drivers return NaN for a pair that is not connected, whatever the libm does. *)
Theorem C84_binary64_zeros_refuted :
  forall (T : libm) (red1 red2 : list (list (nat * list spec_float)) -> list (nat * list spec_float)),
  rayon red1 -> rayon red2 ->
  exists t w' J K, fn_tape (f64ops T) sparse_fn sparse_x world0 = Ok (t, w') /\
    ~ connected t 0 1 /\ ~ connected t 1 0 /\
    jacobian_forward (f64ops T) red1 sparse_fn sparse_x world0 = Ok J /\ ent (f64ops T) J 1 0 = S754_nan /\
    jacobian_reverse (f64ops T) red2 t = Ok K /\ ent (f64ops T) K 0 1 = S754_nan.
Proof. exact @sparse_binary64. Qed.
Print Assumptions C84_binary64_zeros_refuted.

(** f(x0, x1, x2) = (x0 * x1, sin x2): output 0 is connected with 0 and 1, output 1 with 2. *)
Definition two_parts {F : Type} : func F := AdvFn 3 2 (Let2 BMul 0 1 (Let1 USin 2 (Ret [3; 4]))).
Definition two_parts_tape {F : Type} (Fo : Fops F) (x : list F) : tape F :=
  match fn_tape Fo two_parts x world0 with Ok (t, _) => t | Panic _ => mkTape [] [] [] [] end.
Lemma two_parts_recorded {F : Type} (Fo : Fops F) a b c :
  exists w', fn_tape Fo two_parts [a; b; c] world0 = Ok (two_parts_tape Fo [a; b; c], w').
Proof. eexists. reflexivity. Qed.
Lemma two_parts_connected {F : Type} (Fo : Fops F) a b c i k : connected (two_parts_tape Fo [a; b; c]) i k <->
  (k = 0 /\ (i = 0 \/ i = 1)) \/ (k = 1 /\ i = 2).
Proof.
  split.
  - intros (p & q & A & B & L). cbn in A, B.
    destruct i as [|[|[|[]]]]; try discriminate A; injection A as <-;
      (destruct k as [|[|[]]]; try discriminate B; injection B as <-); try (lia);
      exfalso; (apply leads_inv in L as [L|(o & [<-|[<-|[]]] & (_ & _ & U) & L)]; try discriminate; cbn in U, L;
      try (destruct U; discriminate);
      apply leads_inv in L as [L|(o & [<-|[<-|[]]] & (_ & _ & U') & L)]; try discriminate; cbn in U'; destruct U'; discriminate).
  - intros [[-> [->| ->]]|[-> ->]]; (eexists _, _; split; [reflexivity|]; split; [reflexivity|]).
    + eapply leads_step; [left; reflexivity| |apply leads_refl]. repeat split; try discriminate. left; reflexivity.
    + eapply leads_step; [left; reflexivity| |apply leads_refl]. repeat split; try discriminate. right; reflexivity.
    + eapply leads_step; [right; left; reflexivity| |apply leads_refl]. repeat split; try discriminate. left; reflexivity.
Qed.
(** So the Jacobian of two_parts has zeros at (0, 2), (1, 0) and (1, 1) at every point. *)
Example C84_example (F : Type) (Fo : Fops F) (a b c : F) (u v z : R) :
  (exists w', fn_tape Fo two_parts [a; b; c] world0 = Ok (two_parts_tape Fo [a; b; c], w')) /\
  wf_tape (two_parts_tape Fo [a; b; c]) /\ num_deps (two_parts_tape Fo [a; b; c]) = 2 /\
  NoDup (t_deps (two_parts_tape Fo [a; b; c])) /\ no_abs (two_parts_tape Rops [u; v; z]) /\
  connected (two_parts_tape Fo [a; b; c]) 1 0 /\ ~ connected (two_parts_tape Fo [a; b; c]) 2 0 /\
  ~ connected (two_parts_tape Fo [a; b; c]) 0 1 /\ ~ connected (two_parts_tape Fo [a; b; c]) 1 1.
Proof.
  split; [apply two_parts_recorded|]. split.
  { destruct (two_parts_recorded Fo a b c) as [w' E].
    apply fn_tape_wf in E. destruct E as ([W _ _ _] & _). exact W. }
  split; [reflexivity|].
  split. { cbn. repeat constructor; cbn; intuition discriminate. }
  split; [reflexivity|]. rewrite !two_parts_connected. lia.
Qed.

(** *** C85 In binary64 a NaN reaches everything that is connected with it: the values ... *)
Theorem C85_values :
  forall (T : libm) (t : tape spec_float) (x : list spec_float) (t1 : tape spec_float) (y : list spec_float) (i k : nat),
  libm_nan T -> wf_tape t -> no_powf t -> tape_zero_order (f64ops T) t x = Ok t1 -> tape_y t1 = Ok y ->
  nth_error x i = Some S754_nan -> connected t i k -> nth_error y k = Some S754_nan.
Proof. exact nan_values. Qed.
Print Assumptions C85_values.

(** ... except through powers: C demands pow(NaN, 0) = 1. *)
Theorem C85_powf_refuted :
  forall T : libm, l_powf T S754_nan (lit 0) = lit 1 ->
  exists t w' t', fn_tape (f64ops T) pow0_fn [lit 2] world0 = Ok (t, w') /\ connected t 0 0 /\
    tape_zero_order (f64ops T) t [S754_nan] = Ok t' /\ tape_y t' = Ok [lit 1].
Proof. exact pow0_swallows. Qed.
Print Assumptions C85_powf_refuted.

(** ... the derivatives along a direction (all operations and every libm) ... *)
Theorem C85_directional :
  forall (T : libm) (t : tape spec_float) (dx dy : list spec_float) (i k : nat),
  wf_tape t -> length dx = num_indeps t -> tape_forward (f64ops T) t dx = Ok dy ->
  nth_error dx i = Some S754_nan -> connected t i k -> nth_error dy k = Some S754_nan.
Proof. exact nan_tangents. Qed.
Print Assumptions C85_directional.

(** ... and the adjoints. *)
Theorem C85_adjoint :
  forall (T : libm) (t : tape spec_float) (ybar xbar : list spec_float) (i k : nat),
  wf_tape t -> NoDup (t_deps t) -> length ybar = num_deps t -> tape_reverse (f64ops T) t ybar = Ok xbar ->
  nth_error ybar k = Some S754_nan -> connected t i k -> nth_error xbar i = Some S754_nan.
Proof. exact nan_adjoints. Qed.
Print Assumptions C85_adjoint.

(** A libm that maps NaN to NaN, and the example of C84 at x1 = NaN. *)
Definition libm_nan0 : libm :=
  mkLibm (fun x => x) (fun x => x) (fun x => x) (fun x => x) (fun x => x) (fun x => x) (fun x => x) (fun x => x) (fun x _ => x).
Example C85_example :
  libm_nan libm_nan0 /\ no_powf (two_parts_tape d64 [lit 1; lit 2; lit 3]) /\
  (exists t1, tape_zero_order (f64ops libm_nan0) (two_parts_tape d64 [lit 1; lit 2; lit 3]) [lit 1; S754_nan; lit 3] = Ok t1 /\
    tape_y t1 = Ok [S754_nan; lit 3]) /\
  tape_forward (f64ops libm_nan0) (two_parts_tape d64 [lit 1; lit 2; lit 3]) [lit 1; S754_nan; lit 0] = Ok [S754_nan; lit 0] /\
  tape_reverse (f64ops libm_nan0) (two_parts_tape d64 [lit 1; lit 2; lit 3]) [S754_nan; lit 0] = Ok [S754_nan; S754_nan; lit 0].
Proof.
  split; [repeat split|]. split. { intros o [<-|[<-|[]]]; discriminate. }
  split; [|split; vm_compute; reflexivity].
  eexists. split; [vm_compute; reflexivity|]. vm_compute. reflexivity.
Qed.
