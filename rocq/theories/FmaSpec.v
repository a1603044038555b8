(** Dense matrix-vector products with fused multiply-adds.

    OrderSpec.v lets the sums of a product be formed in any order but rounds every product before it
    is added.  nalgebra's kernels may instead add a product to a sum with one rounding.  Here both are
    allowed, chosen anew for every product and every sum. *)
From Coq Require Import Reals List Arith ZArith NArith Permutation SpecFloat.
From Flocq Require Import Core.
From Verif Require Import Base Float Operation Tape AContext Methods Function TapeFacts Matrix AbsNormal Checkpoint GenJac F64Facts BallSpec OrderSpec.
Import ListNotations.

(** How a sum of products is formed: as in [order], or the product number [j] fused into a sum. *)
Inductive forder : Type := FProd (j : nat) | FPlus (l r : forder) | FNought | Fused (j : nat) (o : forder).

Fixpoint fproducts (o : forder) : list nat :=
  match o with FProd j => [j] | FPlus l r => fproducts l ++ fproducts r | FNought => [] | Fused j o => j :: fproducts o end.
(** Each of the [n] products once. *)
Definition forder_of (n : nat) (o : forder) : Prop := Permutation (fproducts o) (seq 0 n).
(** An order for every length and every row; orders for the two products of a driver. *)
Definition fordering : Type := nat -> nat -> forder.
Definition fvalid (s : fordering) : Prop := forall n i, forder_of n (s n i).
Definition fvalid2 (o : fordering * fordering) : Prop := fvalid (fst o) /\ fvalid (snd o).

(** The orders of OrderSpec.v fuse nothing. *)
Fixpoint unfused (o : order) : forder :=
  match o with Prod j => FProd j | Plus l r => FPlus (unfused l) (unfused r) | Nought => FNought end.
(** From the first product to the last, each fused into the sum so far. *)
Fixpoint all_fused (n : nat) : forder := match n with O => FNought | S n' => Fused n' (all_fused n') end.

Section Fma.
Context {F : Type} (Fo : Fops F) (fma : F -> F -> F -> F).
Context (red : list (list (nat * list F)) -> list (nat * list F)).

Fixpoint sum_fby (o : forder) (x y : list F) : F :=
  match o with
  | FProd j => f_mul Fo (nth j x (f_zero Fo)) (nth j y (f_zero Fo))
  | FPlus l r => f_add Fo (sum_fby l x y) (sum_fby r x y)
  | FNought => f_zero Fo
  | Fused j o => fma (nth j x (f_zero Fo)) (nth j y (f_zero Fo)) (sum_fby o x y)
  end.
(** [A * v] (nalgebra), with the orders [s]; panics on mismatched dimensions *)
Definition mulv_fby (s : fordering) (A : matrix F) (v : list F) : res (list F) :=
  if m_cols A =? length v
  then Ok (map (fun p => sum_fby (s (length v) (fst p)) (snd p) v) (combine (seq 0 (length (m_dat A))) (m_dat A)))
  else Panic PDim.

(** The chain driver with the products left open, as OrderSpec.v has it with orders. *)
Definition products2 : Type := (matrix F -> list F -> res (list F)) * (matrix F -> list F -> res (list F)).
(** generalized_jacobian.rs:27-37 *)
Definition generalized_jacobian_with (mv : products2) (f : func F) (x dx : list F) (bits : list N) (next : option (gjac F))
  : M (world F) (gjac F) :=
  n <~ mlift (fn_n f) ;;
  _ <~ mlift (assert (length x =? n)) ;;
  t <~ fn_tape Fo f x ;;
  mlift (gj_with Fo red (fst mv) (snd mv) t dx bits next).
(** generalized_jacobian.rs:149-187; link number [idx] uses the products [mvs idx] *)
Definition gj_reverse_with (mvs : nat -> products2) (chain : func F) (st : nat * list F * list F) (g2 : gjac F)
  : M (world F) (gjac F) :=
  let '(idx, x, dx) := st in
  f <~ mlift (chain_nth chain idx) ;;
  generalized_jacobian_with (mvs idx) f x dx [0%N] (Some g2).
Definition generalized_jacobian_chain_with (mvs : nat -> products2) (est : Z -> Z -> Z) (chain : func F) (x dx : list F)
  (ncheckpoints : option nat) : M (world F) (gjac F) :=
  reverse_sequence est (gj_forward Fo chain) (gj_reverse_with mvs chain) (gj_identity Fo)
    (0, x, dx) (chain_len chain)
    (match ncheckpoints with Some k => k | None => chain_len chain end).
(** [along] of ChainBallSpec.v with these products; the first tape is link number [i]. *)
Fixpoint along_with (mvs : nat -> products2) (i : nat) (ts : list (tape F)) (x dx : list F) : res (gjac F) :=
  match ts with
  | [] => Ok (mkG (m_id Fo (length x)) (repeat (f_zero Fo) (length x)) 0)
  | t :: ts' =>
      t1 <- tape_zero_order Fo t x ;;
      y <- tape_y t1 ;;
      dy <- tape_forward Fo t1 dx ;;
      g <- along_with mvs (i + 1) ts' y dy ;;
      gj_with Fo red (fst (mvs i)) (snd (mvs i)) t1 dx [0%N] (Some g)
  end.

(** The drivers with fused orders. *)
Definition fused_pair (o : fordering * fordering) : products2 := (mulv_fby (fst o), mulv_fby (snd o)).
Definition abs_normal_fby (o : fordering * fordering) : tape F -> res anf :=
  abs_normal_with Fo red (mulv_fby (fst o)) (mulv_fby (snd o)).
Definition gj_fby (o : fordering * fordering) : tape F -> list F -> list N -> option (gjac F) -> res (gjac F) :=
  gj_with Fo red (mulv_fby (fst o)) (mulv_fby (snd o)).
Definition generalized_jacobian_chain_fby (os : nat -> fordering * fordering) :=
  generalized_jacobian_chain_with (fun i => fused_pair (os i)).
Definition along_fby (os : nat -> fordering * fordering) := along_with (fun i => fused_pair (os i)).
End Fma.

(** Fused multiply-add: exact; in binary64, any function that rounds once; for error bounds. *)
Local Open Scope R_scope.
Definition r_fma (a b c : R) : R := a * b + c.
Definition rounds_once (fma : spec_float -> spec_float -> spec_float -> spec_float) : Prop :=
  forall x y z a b c, f64 x a -> f64 y b -> f64 z c -> Rabs (a * b + c) <= bpow radix2 1023 -> f64 (fma x y z) (rnd (a * b + c)).
Definition b_fma (a b c : ball) : ball :=
  match a, b, c with
  | Some (c, e), Some (c', e'), Some (c2, e2) => rounded (c * c' + c2) (e * Rabs c' + Rabs c * e' + e * e' + e2)
  | _, _, _ => None
  end.
