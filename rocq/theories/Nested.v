(** Nested AFloats: [AFloat<AFloat<S>>], the crate's way to second derivatives.

    [AFloat<S>] implements [Float] for every [S: Float] (afloat.rs:295-391), so an AFloat can
    itself be the scalar of an AFloat.  Below, [Dops Fo] is this implementation for AFloats without
    context (tapeless mode); a variable is the pair of its value and its derivative.
    Simplification: contexts are left out (attaching a nested AFloat to a context truncates
    its values, see C24). *)
From Coq Require Import List Arith ZArith Bool Lia.
From Verif Require Import Base Float Operation Tape AContext Methods Function Spec Param Instances.
Import ListNotations.

Section Nested.
Context {F : Type} (Fo : Fops F).

(** The result of a method without context: none of the methods below can panic. *)
Definition dual (m : M unit (F * F)) : F * F :=
  match m tt with Ok (r, _) => r | Panic _ => d_cst Fo (f_zero Fo) end.

(** afloat.rs:115-119 ([==]), 121-125 ([<]), 133-168, 202-246, 295-391; operation on a pair:
    [from_op], afloat.rs:47-55 *)
Definition Dops : Fops (F * F) := {|
  f_zero := d_cst Fo (f_zero Fo);
  f_one := d_cst Fo (f_one Fo);
  f_half := d_cst Fo (f_half Fo);
  f_of_Z := fun n => d_cst Fo (f_of_Z Fo n);
  f_add := fun x y => dual (m_add (d_fop Fo) x y);
  f_sub := fun x y => dual (m_sub (d_fop Fo) x y);
  f_mul := fun x y => dual (m_mul (d_fop Fo) x y);
  f_div := fun x y => dual (m_div (d_fop Fo) x y);
  f_neg := fun x => dual (m_neg Fo (d_fop Fo) (d_cst Fo) x);
  f_abs := fun x => dual (m_abs (d_fop Fo) x);
  f_sin := fun x => dual (m_sin (d_fop Fo) x);
  f_cos := fun x => dual (m_cos (d_fop Fo) x);
  f_tan := fun x => dual (m_tan (d_fop Fo) x);
  f_exp := fun x => dual (m_exp (d_fop Fo) x);
  f_ln := fun x => dual (m_ln (d_fop Fo) x);
  f_asin := fun x => dual (m_asin (d_fop Fo) x);
  f_acos := fun x => dual (m_acos (d_fop Fo) x);
  f_atan := fun x => dual (m_atan (d_fop Fo) x);
  f_sqrt := fun x => dual (m_sqrt Fo (d_fop Fo) (d_cst Fo) x);
  f_powf := fun x y => dual (m_powf (d_fop Fo) x y);
  f_powi := fun x n => dual (m_powi Fo (d_fop Fo) (d_cst Fo) x n);
  f_eqb := fun x y => f_eqb Fo (fst x) (fst y);
  f_ltb := fun x y => f_ltb Fo (fst x) (fst y)
|}.

(** A generic user function ([fn f<S: Float>(x: S, ..)]) used at the scalar [AFloat<S>]: its
    constants are converted by [NumCast::from] (afloat.rs:210-217), and what it observes of a
    value is the value (afloat.rs:115-125, 286-293). *)
Fixpoint lift (p : prog F) : prog (F * F) :=
  match p with
  | Ret outs => Ret outs
  | LetC c p' => LetC (d_cst Fo c) (lift p')
  | Let1 u a p' => Let1 u a (lift p')
  | Let2 b a1 a2 p' => Let2 b a1 a2 (lift p')
  | LetMulAdd a1 a2 a3 p' => LetMulAdd a1 a2 a3 (lift p')
  | Inspect a k => Inspect a (fun s => lift (k (fst s)))
  | Abort => Abort
  end.

Fixpoint lift_f (f : func F) : func (F * F) :=
  match f with
  | Simple n m p => Simple n m (lift p)
  | AdvFn n m p => AdvFn n m (lift p)
  | Chain fs =>
      Chain ((fix go (l : list (func F)) : list (func (F * F)) :=
                match l with [] => [] | g :: l' => lift_f g :: go l' end) fs)
  end.

(** Evaluating the function on variables of type [AFloat<AFloat<S>>]. *)
Definition nested_eval (f : func F) : list ((F * F) * (F * F)) -> res (list ((F * F) * (F * F))) :=
  d_eval Dops (lift_f f).

(** The variables [AFloat::new(AFloat::new(x, u), AFloat::new(v, w))]. *)
Fixpoint nested_in (x u v w : list F) : list ((F * F) * (F * F)) :=
  match x, u, v, w with
  | a :: x', b :: u', c :: v', d :: w' => ((a, b), (c, d)) :: nested_in x' u' v' w'
  | _, _, _, _ => []
  end.

(** ** The same evaluation as an instance of the methods over [F] *)
Definition n_cst (c : F) : (F * F) * (F * F) := d_cst Dops (d_cst Fo c).
Definition n_val (x : (F * F) * (F * F)) : F := fst (fst x).

Lemma nested_run p : forall env s,
  run Dops (d_fop Dops) (d_cst Dops) fst (lift p) env s
  = run Fo (d_fop Dops) n_cst n_val p env s.
Proof.
  induction p as [outs|c p IH|u a p IH|b a1 a2 p IH|a1 a2 a3 p IH|a k IH| ];
    intros env s; cbn [run lift]; auto.
  - unfold mbind. destruct (mlift (get env a) s) as [[x s1]|]; auto.
    change (meth1 Dops (d_fop Dops) (d_cst Dops) u x s1)
      with (meth1 Fo (d_fop Dops) n_cst u x s1).
    destruct (meth1 Fo (d_fop Dops) n_cst u x s1) as [[r s2]|]; auto.
  - unfold mbind. destruct (mlift (get env a1) s) as [[x s1]|]; auto.
    destruct (mlift (get env a2) s1) as [[y s2]|]; auto.
    change (meth2 Dops (d_fop Dops) (d_cst Dops) b x y s2)
      with (meth2 Fo (d_fop Dops) n_cst b x y s2).
    destruct (meth2 Fo (d_fop Dops) n_cst b x y s2) as [[r s3]|]; auto.
  - unfold mbind. destruct (mlift (get env a1) s) as [[x s1]|]; auto.
    destruct (mlift (get env a2) s1) as [[y s2]|]; auto.
    destruct (mlift (get env a3) s2) as [[z s3]|]; auto.
    destruct (m_mul_add (d_fop Dops) x y z s3) as [[r s4]|]; auto.
  - unfold mbind. destruct (mlift (get env a) s) as [[x s1]|]; auto.
Qed.

Lemma nested_feval f : forall env s,
  feval Dops (d_fop Dops) (d_cst Dops) fst (lift_f f) env s
  = feval Fo (d_fop Dops) n_cst n_val f env s.
Proof.
  induction f as [n m p|n m p|fs IH] using func_ind'; intros env s; cbn [feval lift_f].
  - apply nested_run.
  - unfold mbind. destruct (mlift (assert (length env =? n)) s) as [[x s1]|]; auto.
    rewrite nested_run. auto.
  - revert env s. induction fs as [|g fs IHf]; intros env s; auto.
    inversion IH; subst. unfold mbind. rewrite H1.
    destruct (feval Fo (d_fop Dops) n_cst n_val g env s) as [[r s']|]; auto.
Qed.

Lemma nested_eval_eq f X :
  nested_eval f X = (r <- feval Fo (d_fop Dops) n_cst n_val f X tt ;; Ok (fst r)).
Proof. unfold nested_eval, d_eval. rewrite nested_feval. reflexivity. Qed.

End Nested.

