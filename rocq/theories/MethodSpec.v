(** Specification of the derived [Float] methods in exact real arithmetic: what num::Float's
    documentation says each method computes, and where. *)
From Coq Require Import Reals ZArith.
From Verif Require Import Base Methods.
Open Scope R_scope.

Definition sem1 (u : un) (x : R) : R :=
  match u with
  | UNeg => - x
  | UAbs => Rabs x
  | UExp => exp x
  | ULn => ln x
  | USin => sin x
  | UCos => cos x
  | UTan => sin x / cos x
  | UAsin => asin x
  | UAcos => acos x
  | UAtan => atan x
  | URecip => 1 / x
  | UPowi n => powerRZ x n
  | USqrt => sqrt x
  | UExp2 => Rpower 2 x
  | ULog2 => ln x / ln 2
  | ULog10 => ln x / ln 10
  | UCbrt => Rpower x (/ 3)
  | UUnsupported => 0
  end.

(** Arguments at which the method has a value. *)
Definition valid1 (u : un) (x : R) : Prop :=
  match u with
  | ULn | ULog2 | ULog10 | UCbrt => 0 < x
  | USqrt => 0 <= x
  | UTan => cos x <> 0
  | UAsin | UAcos => -1 <= x <= 1
  | URecip => x <> 0
  | UPowi n => x <> 0 \/ (0 <= n)%Z
  | UUnsupported => False
  | _ => True
  end.

(** Arguments at which the method is differentiable ([UAbs] is treated separately). *)
Definition smooth1 (u : un) (x : R) : Prop :=
  match u with
  | ULn | ULog2 | ULog10 | UCbrt | USqrt => 0 < x
  | UTan => cos x <> 0
  | UAsin | UAcos => -1 < x < 1
  | URecip => x <> 0
  | UPowi n => x <> 0 \/ (1 <= n)%Z
  | UAbs | UUnsupported => False
  | _ => True
  end.

(** [BAbsSub] as documented by num::Float: "the positive difference of two numbers". *)
Definition sem2 (b : bin) (x y : R) : R :=
  match b with
  | BAdd => x + y
  | BSub => x - y
  | BMul => x * y
  | BDiv => x / y
  | BPowf => Rpower x y
  | BLog => ln x / ln y
  | BMax => Rmax x y
  | BMin => Rmin x y
  | BAbsSub => Rmax (x - y) 0
  | BHypot => sqrt (x * x + y * y)
  | BUnsupported => 0
  end.

Definition valid2 (b : bin) (x y : R) : Prop :=
  match b with
  | BDiv => y <> 0
  | BPowf => 0 < x
  | BLog => 0 < x /\ 0 < y /\ y <> 1
  | BAbsSub => y <= x
  | BUnsupported => False
  | _ => True
  end.

(** Arguments at which the method is differentiable ([BMax], [BMin] are treated separately). *)
Definition smooth2 (b : bin) (x y : R) : Prop :=
  match b with
  | BMax | BMin | BAbsSub | BUnsupported => False
  | BHypot => x <> 0 \/ y <> 0
  | b => valid2 b x y
  end.
