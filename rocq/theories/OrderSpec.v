(** Dense matrix-vector products with the sums formed in any order.

    Matrix.v fixes one order ([fdot]); the code leaves it to nalgebra, whose source is not part of
    /repo.  Here the order is a parameter: any bracketing of any arrangement of the products, with
    zeros added anywhere, chosen anew for every row and every product. *)
From Coq Require Import List Arith ZArith NArith Permutation.
From Verif Require Import Base Float Operation Tape AContext Methods Function TapeFacts Matrix AbsNormal Checkpoint GenJac.
Import ListNotations.

(** How a sum of products is formed: the product number [j], a sum of two such sums, or zero. *)
Inductive order : Type := Prod (j : nat) | Plus (l r : order) | Nought.

(** The products it mentions; an order for [n] products mentions each of them once. *)
Fixpoint products (o : order) : list nat :=
  match o with Prod j => [j] | Plus l r => products l ++ products r | Nought => [] end.
Definition order_of (n : nat) (o : order) : Prop := Permutation (products o) (seq 0 n).

(** An order for every length and every row. *)
Definition ordering : Type := nat -> nat -> order.
Definition valid (s : ordering) : Prop := forall n i, order_of n (s n i).

(** Orders for the two products of a driver. *)
Definition valid2 (o : ordering * ordering) : Prop := valid (fst o) /\ valid (snd o).

Section Order.
Context {F : Type} (Fo : Fops F).
Context (red : list (list (nat * list F)) -> list (nat * list F)).

Fixpoint sum_by (o : order) (x y : list F) : F :=
  match o with
  | Prod j => f_mul Fo (nth j x (f_zero Fo)) (nth j y (f_zero Fo))
  | Plus l r => f_add Fo (sum_by l x y) (sum_by r x y)
  | Nought => f_zero Fo
  end.

(** [A * v] (nalgebra), with the orders [s]; panics on mismatched dimensions *)
Definition mulv_by (s : ordering) (A : matrix F) (v : list F) : res (list F) :=
  if m_cols A =? length v
  then Ok (map (fun p => sum_by (s (length v) (fst p)) (snd p) v) (combine (seq 0 (length (m_dat A))) (m_dat A)))
  else Panic PDim.

(** drivers/abs_normal.rs:293-336 as AbsNormal.v has it, with the products left open: [mv1] for
    L |z|, [mv2] for (-Y) |z| *)
Definition abs_normal_with (mv1 mv2 : matrix F -> list F -> res (list F)) (t : tape F) : res anf :=
  at_ <- an_new t ;;
  let n := an_n at_ in
  let m := an_m at_ in
  let s := an_s at_ in
  zmat <- (if n <? s then mul_right Fo red (z_tape at_) (m_id Fo n) else mul_left Fo red (z_tape at_) (m_id Fo s)) ;;
  lmat <- mul_left Fo red (l_tape at_) (m_id Fo s) ;;
  jmat <- (if n <? m then mul_right Fo red (j_tape at_) (m_id Fo n) else mul_left Fo red (j_tape at_) (m_id Fo m)) ;;
  ymat <- (if s <? m then mul_right Fo red (y_tape at_) (m_id Fo s) else mul_left Fo red (y_tape at_) (m_id Fo m)) ;;
  z <- an_z at_ ;;
  let z_abs := v_abs Fo z in
  lz <- mv1 lmat z_abs ;;
  a <- v_sub Fo z lz ;;
  b <- mv2 (m_neg2 Fo ymat) z_abs ;;
  Ok (mkANF a zmat lmat b jmat ymat).

(** drivers/generalized_jacobian.rs:40-147 as GenJac.v has it, with the products left open: [mv1]
    for G b, [mv2] for U a *)
Definition gj_with (mv1 mv2 : matrix F -> list F -> res (list F)) (t : tape F) (dx : list F) (bits : list N)
  (next : option (gjac F)) : res (gjac F) :=
  let n := num_indeps t in
  let m := num_deps t in
  let s := num_abs t in
  _ <- assert (length dx =? n) ;;
  at_ <- an_new t ;;
  z <- an_z at_ ;;
  let z_abs := v_abs Fo z in
  lz <- mul_right_vec Fo red (l_tape at_) z_abs ;;
  a <- v_sub Fo z lz ;;
  yz <- mul_right_vec Fo red (y_tape at_) z_abs ;;
  let b := v_neg Fo yz in
  zdx <- mul_right_vec Fo red (z_tape at_) dx ;;
  dzt <- v_add Fo a zdx ;;
  dz <- dz_loop Fo red (l_tape at_) dzt s dzt ;;
  let '(sigma, mult) := signs_loop Fo bits 0 0 dz in
  let '(g2, gamma2, mult) :=
    match next with
    | Some g => (g_hom g, g_inh g, mult + g_mult g)
    | None => (m_id Fo m, repeat (f_zero Fo) m, mult)
    end in
  ys <- mul_left Fo red (y_tape at_) g2 ;;
  let base := scale_cols Fo ys sigma in
  u <- u_loop Fo red (l_tape at_) sigma base s base ;;
  gj <- mul_left Fo red (j_tape at_) g2 ;;
  uz <- mul_left Fo red (z_tape at_) u ;;
  hom <- m_add2 Fo gj uz ;;
  g2b <- mv1 g2 b ;;
  i1 <- v_add Fo gamma2 g2b ;;
  ua <- mv2 u a ;;
  inh <- v_add Fo i1 ua ;;
  Ok (mkG hom inh mult).

(** The drivers with orders; [o] has the orders of the two products. *)
Definition abs_normal_by (o : ordering * ordering) : tape F -> res anf :=
  abs_normal_with (mulv_by (fst o)) (mulv_by (snd o)).
Definition gj_by (o : ordering * ordering) : tape F -> list F -> list N -> option (gjac F) -> res (gjac F) :=
  gj_with (mulv_by (fst o)) (mulv_by (snd o)).

(** generalized_jacobian.rs:27-37 *)
Definition generalized_jacobian_by (o : ordering * ordering) (f : func F) (x dx : list F) (bits : list N) (next : option (gjac F))
  : M (world F) (gjac F) :=
  n <~ mlift (fn_n f) ;;
  _ <~ mlift (assert (length x =? n)) ;;
  t <~ fn_tape Fo f x ;;
  mlift (gj_by o t dx bits next).

(** generalized_jacobian.rs:149-187; link number [idx] uses the orders [os idx] *)
Definition gj_reverse_by (os : nat -> ordering * ordering) (chain : func F) (st : nat * list F * list F) (g2 : gjac F)
  : M (world F) (gjac F) :=
  let '(idx, x, dx) := st in
  f <~ mlift (chain_nth chain idx) ;;
  generalized_jacobian_by (os idx) f x dx [0%N] (Some g2).
Definition generalized_jacobian_chain_by (os : nat -> ordering * ordering) (est : Z -> Z -> Z) (chain : func F) (x dx : list F)
  (ncheckpoints : option nat) : M (world F) (gjac F) :=
  reverse_sequence est (gj_forward Fo chain) (gj_reverse_by os chain) (gj_identity Fo)
    (0, x, dx) (chain_len chain)
    (match ncheckpoints with Some k => k | None => chain_len chain end).

(** [along] of ChainBallSpec.v with orders; the first tape is link number [i]. *)
Fixpoint along_by (os : nat -> ordering * ordering) (i : nat) (ts : list (tape F)) (x dx : list F) : res (gjac F) :=
  match ts with
  | [] => Ok (mkG (m_id Fo (length x)) (repeat (f_zero Fo) (length x)) 0)
  | t :: ts' =>
      t1 <- tape_zero_order Fo t x ;;
      y <- tape_y t1 ;;
      dy <- tape_forward Fo t1 dx ;;
      g <- along_by os (i + 1) ts' y dy ;;
      gj_by (os i) t1 dx [0%N] (Some g)
  end.
End Order.

(** Equal but for the constant vectors. *)
Definition same_anf {F : Type} (N N' : @anf F) : Prop :=
  f_zmat N = f_zmat N' /\ f_lmat N = f_lmat N' /\ f_jmat N = f_jmat N' /\ f_ymat N = f_ymat N' /\
  length (f_a N) = length (f_a N') /\ length (f_b N) = length (f_b N').
Definition same_hom {F : Type} (G G' : gjac F) : Prop :=
  g_hom G = g_hom G' /\ g_mult G = g_mult G' /\ length (g_inh G) = length (g_inh G').

(** Two orders: from the last product to the first, as [fdot] does, and from the first to the last. *)
Fixpoint backward (j n : nat) : order := match n with O => Nought | S n' => Plus (Prod j) (backward (S j) n') end.
Fixpoint forward (n : nat) : order := match n with O => Nought | S O => Prod 0 | S n' => Plus (forward n') (Prod n') end.
