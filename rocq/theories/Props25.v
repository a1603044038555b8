(** Property theorems C75: the gradient of the shortest-path example (specification vocabulary in
    FloydSpec.v; [col g 0]: the column the example calls its gradient). *)
From Coq Require Import Reals Lra List Arith ZArith NArith Bool.
From Verif Require Import Base Float Operation Tape AContext Methods Function Spec RealInst DerivSpec Matrix Jacobian AnfSpec RVec
  Checkpoint CheckSpec GenJac GenSpec Programs FloydSpec FloydMain FloydPair FloydGraph FloydGrad FloydEnvelope.
Import ListNotations.
Open Scope R_scope.

(** *** C75 The gradient of the shortest-path example is half the derivative.
    V is the sum of squared distances the example minimises (C60); the streets have different ends;
    no parameter lies on the boundary 0.01 or 0.99 of its range.  Wherever V has a derivative l along
    v, the product of the computed gradient with v is l / 2 and not l. *)
Theorem C75_half_the_derivative :
  forall red est n nl inf (edges : list edge) exits (params : list R) w (V : list R -> R),
  rayon red -> accurate est (Z.of_nat (n + 2) + 1) -> (Z.of_nat (n + 2) + 1 <= 2 ^ 32)%Z -> (2 <= n)%nat ->
  0 <= inf -> length params = nl -> Forall (street_ok n nl) edges ->
  Forall (fun e : edge => fst (fst e) <> snd (fst e)) edges -> Forall (fun u => (u < n)%nat) exits ->
  Forall (fun p => p <> 1 / 100 /\ p <> 99 / 100) params ->
  (forall q w, length q = nl -> exists w', fw_value Rops n nl inf edges exits q w = Ok (V q, w')) ->
  exists g w', fw_gradient Rops red est n nl inf edges exits params w = Ok (g, w') /\ shape g nl 1 /\
    forall v l, length v = nl -> derivable_pt_lim (fun s => V (vadd params (vscal s v))) 0 l -> dot (col g 0) v = l / 2.
Proof. exact fw_gradient_half. Qed.
Print Assumptions C75_half_the_derivative.

(** So every entry is half the partial derivative. *)
Theorem C75_half_the_partial_derivatives :
  forall red est n nl inf (edges : list edge) exits (params : list R) w (V : list R -> R),
  rayon red -> accurate est (Z.of_nat (n + 2) + 1) -> (Z.of_nat (n + 2) + 1 <= 2 ^ 32)%Z -> (2 <= n)%nat ->
  0 <= inf -> length params = nl -> Forall (street_ok n nl) edges ->
  Forall (fun e : edge => fst (fst e) <> snd (fst e)) edges -> Forall (fun u => (u < n)%nat) exits ->
  Forall (fun p => p <> 1 / 100 /\ p <> 99 / 100) params ->
  (forall q w, length q = nl -> exists w', fw_value Rops n nl inf edges exits q w = Ok (V q, w')) ->
  exists g w', fw_gradient Rops red est n nl inf edges exits params w = Ok (g, w') /\ shape g nl 1 /\
    forall j l, (j < nl)%nat -> derivable_pt_lim (fun s => V (update params j (nth j params 0 + s))) 0 l ->
      ent Rops g j 0 = l / 2.
Proof. exact fw_gradient_entry. Qed.
Print Assumptions C75_half_the_partial_derivatives.

(** One street, the light at 1/2: all hypotheses hold, V = 2 (1 + 1/q)^2 has the derivative -48, the
    gradient is -24. *)
Example C75_example :
  (exists w', fw_gradient Rops (@concat _) (fun c r => up (estimate c r)) 2 1 10000 one_street [0; 1]%nat [1 / 2] world0 =
     Ok (mkM 1 1 [[-24]], w')) /\
  derivable_pt_lim (fun q => 2 * Rsqr (1 + / q)) (1 / 2) (-48) /\
  forall q w, / 100 <= q <= 99 / 100 ->
    exists w', fw_value Rops 2 1 10000 one_street [0; 1]%nat [q] w = Ok (2 * Rsqr (1 + / q), w').
Proof. split; [exact one_street_half|]. split; [exact one_street_derivative|exact one_street_value]. Qed.
Print Assumptions C75_example.
