(** Property theorems C76: the loop of the shortest-path example (specification vocabulary in
    FloydLoopSpec.v; [fs_out]: the lines printed, [fin]: the loop has ended). *)
From Coq Require Import Reals Lra List Arith ZArith NArith Bool SpecFloat Lia.
From Verif Require Import Base Float FloatInst Operation Tape AContext Methods Function Spec RealInst Matrix MatrixFacts Jacobian
  Checkpoint CheckSpec CheckMain GenJac GenSpec Descent Programs FloydSpec FloydMain FloydLoop FloydLoopSpec FloydTotal FloydLoopFacts.
Import ListNotations.
Open Scope nat_scope.

(** *** C76 The loop of the shortest-path example.
    In every arithmetic the two closures compute functions of the parameters, and do not panic. *)
Theorem C76_closures_never_panic :
  forall {F : Type} (Fo : Fops F) red est n nl inf (edges : list edge) exits,
  rayon red -> accurate est (Z.of_nat (n + 2) + 1) -> (Z.of_nat (n + 2) + 1 <= 2 ^ 32)%Z -> 2 <= n ->
  Forall (street_ok n nl) edges -> Forall (fun u => u < n) exits ->
  exists val grad, forall q, length q = nl -> length (grad q) = nl /\ forall w,
    (exists w', fw_value Fo n nl inf edges exits q w = Ok (val q, w')) /\
    (exists w', fw_grad Fo red est n nl inf edges exits q w = Ok (grad q, w')).
Proof. exact @closures_total. Qed.
Print Assumptions C76_closures_never_panic.

(** The program does not panic; it follows the method from [start]; it ends at the first point whose
    gradient is not longer than [eps]; it prints error and gradient at the start, in every iteration
    the error of the point it leaves and the gradient of the point it reaches, and at the end the
    parameters.  (So the first error is printed twice, and the last point's error never.) *)
Theorem C76_output :
  forall {F : Type} (Fo : Fops F) red est n nl inf (edges : list edge) exits,
  rayon red -> accurate est (Z.of_nat (n + 2) + 1) -> (Z.of_nat (n + 2) + 1 <= 2 ^ 32)%Z -> 2 <= n ->
  Forall (street_ok n nl) edges -> Forall (fun u => u < n) exits ->
  forall val grad,
  (forall q, length q = nl -> exists w', fw_value Fo n nl inf edges exits q world0 = Ok (val q, w')) ->
  (forall q, length q = nl -> exists w', fw_grad Fo red est n nl inf edges exits q world0 = Ok (grad q, w')) ->
  forall eps step start fuel w, length start = nl ->
  exists s fin w' ps, fw_main Fo red est n nl inf edges exits eps step start fuel w = Ok ((s, fin), w') /\
    follows Fo grad eps start step ps /\ length ps <= fuel /\ (fin = false -> length ps = fuel) /\
    f_ltb Fo eps (norm Fo (grad (last ps start))) = negb fin /\
    fs_params s = last ps start /\
    fs_out s = [PrintE (f_sqrt Fo (val start)); PrintG (grad start)] ++ lines Fo val grad start ps ++
               (if fin then [PrintQuota (last ps start)] else []).
Proof. exact @fw_main_total. Qed.
Print Assumptions C76_output.

(** Over the reals, a parameter at or below 0.01 or above 0.99 keeps its value for the rest of the run. *)
Theorem C76_stuck :
  forall red est n nl inf (edges : list edge) exits eps step start fuel w s fin w' j,
  rayon red -> accurate est (Z.of_nat (n + 2) + 1) -> (Z.of_nat (n + 2) + 1 <= 2 ^ 32)%Z -> 2 <= n ->
  (0 <= inf)%R -> Forall (street_ok n nl) edges ->
  Forall (fun e : edge => fst (fst e) <> snd (fst e)) edges -> Forall (fun u => u < n) exits ->
  length start = nl -> j < nl -> (nth j start 0 <= 1 / 100 \/ 99 / 100 < nth j start 0)%R ->
  fw_main Rops red est n nl inf edges exits eps step start fuel w = Ok ((s, fin), w') ->
  nth j (fs_params s) 0%R = nth j start 0%R.
Proof. exact fw_stuck. Qed.
Print Assumptions C76_stuck.

(** In binary64, a NaN in the gradient ends the loop. *)
Theorem C76_nan_ends_loop :
  forall T red est n nl inf (edges : list edge) exits eps fuel (s : fw_state) w,
  In S754_nan (fs_grad s) -> fw_loop (f64ops T) red est n nl inf edges exits eps fuel s w = Ok ((s, true), w).
Proof. exact fw_nan_ends_loop. Qed.
Print Assumptions C76_nan_ends_loop.

(** The example's own map, exits and start. *)
Example C76_example : forall T,
  rayon (@concat (nat * list spec_float)) /\ accurate (fun c r => up (estimate c r)) (Z.of_nat (23 + 2) + 1) /\
  (Z.of_nat (23 + 2) + 1 <= 2 ^ 32)%Z /\ 2 <= 23 /\ Forall (street_ok 23 6) ex_edges /\
  Forall (fun u => u < 23) ex_exits /\ Forall (fun e : edge => fst (fst e) <> snd (fst e)) ex_edges /\
  length (ex_start (f64ops T)) = 6.
Proof.
  intros T. split; [apply rayon_exists|]. split; [apply accurate_up|]. split; [vm_compute; discriminate|]. split; [lia|].
  split; [repeat constructor; cbn; lia|]. split; [repeat constructor|]. split; [repeat constructor; cbn; lia|]. reflexivity.
Qed.
Print Assumptions C76_example.
