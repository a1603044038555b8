(** Exact real arithmetic. *)
From Coq Require Import Reals ZArith Bool List.
From Verif Require Import Base Float.
Import ListNotations.
Open Scope R_scope.

Definition Reqb (x y : R) : bool := if Req_EM_T x y then true else false.
Definition Rltb (x y : R) : bool := if Rlt_dec x y then true else false.

Lemma Reqb_true x y : Reqb x y = true <-> x = y.
Proof. unfold Reqb. destruct (Req_EM_T x y); split; congruence. Qed.
Lemma Reqb_false x y : Reqb x y = false <-> x <> y.
Proof. unfold Reqb. destruct (Req_EM_T x y); split; congruence. Qed.
Lemma Rltb_true x y : Rltb x y = true <-> x < y.
Proof. unfold Rltb. destruct (Rlt_dec x y); split; congruence. Qed.
Lemma Rltb_false x y : Rltb x y = false <-> ~ x < y.
Proof. unfold Rltb. destruct (Rlt_dec x y); split; congruence. Qed.

(** x^y: for positive x by exp and ln, for other x and integer y by repeated multiplication.
    For other arguments [f64::powf] returns NaN (x < 0, y not an integer), 0 (x = 0, y > 0) or
    infinity (x = 0, y < 0); the value below is then a placeholder except for x = 0, y > 0, and
    theorems exclude these arguments by their domain conditions. *)
Definition Rpowf (x y : R) : R :=
  if Rlt_dec 0 x then Rpower x y
  else if Req_EM_T (IZR (Int_part y)) y then powerRZ x (Int_part y)
  else 0.

Definition Rops : Fops R := {|
  f_zero := 0;
  f_one := 1;
  f_half := / 2;
  f_of_Z := IZR;
  f_add := Rplus;
  f_sub := Rminus;
  f_mul := Rmult;
  f_div := Rdiv;
  f_neg := Ropp;
  f_abs := Rabs;
  f_sin := sin;
  f_cos := cos;
  f_tan := tan;
  f_exp := exp;
  f_ln := ln;
  f_asin := asin;
  f_acos := acos;
  f_atan := atan;
  f_sqrt := sqrt;
  f_powf := Rpowf;
  f_powi := powerRZ;
  f_eqb := Reqb;
  f_ltb := Rltb
|}.

Lemma Rpowf_pos x y : 0 < x -> Rpowf x y = Rpower x y.
Proof. intros H. unfold Rpowf. destruct (Rlt_dec 0 x); [auto|contradiction]. Qed.

Lemma Int_part_IZR n : Int_part (IZR n) = n.
Proof.
  unfold Int_part. apply eq_sym.
  assert ((n + 1)%Z = up (IZR n)) as <-; [|ring].
  apply tech_up; rewrite plus_IZR; [|apply Rle_refl].
  rewrite <- (Rplus_0_r (IZR n)) at 1. apply Rplus_lt_compat_l, Rlt_0_1.
Qed.

Lemma Rpowf_int x n : Rpowf x (IZR n) = powerRZ x n.
Proof.
  unfold Rpowf. destruct (Rlt_dec 0 x) as [H|H].
  - rewrite powerRZ_Rpower; auto.
  - rewrite Int_part_IZR. destruct (Req_EM_T (IZR n) (IZR n)); congruence.
Qed.
