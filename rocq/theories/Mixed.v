(** Recordings made with another number type than [f64], for instance with [ASingle]
    (= [AFloat<f32>], afloat.rs:5), and what their tapes compute.  [AContext::set_indep],
    [set_dep] and [record] (acontext.rs:91-164) accept an [AFloat<S>] for every [S: Float]; the
    tape stores [f64]s, and the sweeps of tape.rs compute with [f64]s. *)
From Coq Require Import List Arith ZArith Bool Lia SpecFloat.
From Verif Require Import Base Float FloatInst Operation Tape AContext Methods Function
  Instances.
Import ListNotations.

Section Mixed.
Context {Sc F : Type} (So : Fops Sc) (Fo : Fops F) (tof : Sc -> option F).

(** The user code
<<
      let mut ctx = AContext::new();
      for v in x.iter_mut() { ctx.set_indep(v); }      // x: Vec<AFloat<S>>
      let y = body(x);
      ctx.set_dep_slice(&y);
      ctx.tape()
>>
    (acontext.rs:68-72, 91-97, 140-144, 167-175), the same calls in the same order as
    [Function::tape] (function.rs:26-37) makes for [ADouble].  The context is dropped at the
    end. *)
Definition record_prog (p : prog Sc) (x : list Sc) : M (world F) (tape F) :=
  ctx <~ ctx_new ;;
  input <~ set_indeps tof ctx (map (af_const So) x) ;;
  output <~ run_af So tof p input ;;
  _ <~ set_dep_slice tof ctx output ;;
  t <~ ctx_tape ctx ;;
  _ <~ ctx_drop ctx ;;
  mret t.

(** ** Specification: evaluation in two precisions

    A number is either computed from constants only, and then an [S], or it depends on the
    inputs, and then an [f64] with its tangent. *)
Inductive mixed : Type :=
| FromConstants (s : Sc)
| FromInputs (v d : F).

(** The [f64] equal to an [S] ([NumCast::from]). *)
Definition conv (s : Sc) : F := match tof s with Some v => v | None => f_zero Fo end.

(** A constant enters a computation with inputs as the [f64] it converts to; its tangent is
    zero. *)
Definition as_dual (z : mixed) : F * F :=
  match z with
  | FromConstants s => (conv s, f_zero Fo)
  | FromInputs v d => (v, d)
  end.

Definition mixed_op (oc : OpCode) (x : mixed) (y : option mixed) : M unit mixed :=
  let with_inputs :=
    r <~ d_fop Fo oc (as_dual x) (option_map as_dual y) ;; mret (FromInputs (fst r) (snd r)) in
  match x, y with
  | FromConstants a, None =>
      r <~ v_fop So oc a None ;; mret (FromConstants r)
  | FromConstants a, Some (FromConstants b) =>
      r <~ v_fop So oc a (Some b) ;; mret (FromConstants r)
  | _, _ => with_inputs
  end.

(** The value a branch would be taken on; not used for programs without branches. *)
Definition mixed_branch (z : mixed) : Sc :=
  match z with FromConstants s => s | FromInputs _ _ => f_zero So end.

(** The program [p], run in two precisions at the inputs [x] with tangents [dx]. *)
Definition mixed_run (p : prog Sc) (x dx : list F) : res (list (F * F)) :=
  r <- run So mixed_op FromConstants mixed_branch p
         (map (fun xd => FromInputs (fst xd) (snd xd)) (combine x dx)) tt ;;
  Ok (map as_dual (fst r)).

(** ** When the two precisions agree
    The run of [p] in [S]'s arithmetic at [x], collecting the demand that every operation gives
    the number the [f64] operation gives for the converted operands. *)
Definition exact_op (oc : OpCode) (a : Sc) (b : option Sc) : M Prop Sc := fun P =>
  match zero_order_value So oc a b with
  | Ok r => Ok (r, P /\ zero_order_value Fo oc (conv a) (option_map conv b) = Ok (conv r))
  | Panic p => Panic p
  end.
Definition converts_exactly (p : prog Sc) (x : list Sc) : Prop :=
  forall ys P, run So exact_op (fun c => c) (fun v => v) p x True = Ok (ys, P) -> P.
End Mixed.

Arguments FromConstants {Sc F}. Arguments FromInputs {Sc F}.

(** ** [f32] *)
Definition prec32 : Z := 24.
Definition emax32 : Z := 128.

(** [float_constant!] and integer conversions in [f32] *)
Definition sf32_of_Z (n : Z) : spec_float :=
  match n with
  | Z0 => S754_zero false
  | _ => binary_normalize prec32 emax32 n 0 false
  end.

(** [f32::powi]: [__powisf2], as [powi_pos] in FloatInst.v *)
Fixpoint powi32_pos (a r : spec_float) (n : positive) : spec_float :=
  let mul := SFmul prec32 emax32 in
  match n with
  | xH => mul r a
  | xO n' => powi32_pos (mul a a) r n'
  | xI n' => powi32_pos (mul a a) (mul r a) n'
  end.
Definition sf32_powi (a : spec_float) (n : Z) : spec_float :=
  match n with
  | Z0 => sf32_of_Z 1
  | Zpos p => powi32_pos a (sf32_of_Z 1) p
  | Zneg p => SFdiv prec32 emax32 (sf32_of_Z 1) (powi32_pos a (sf32_of_Z 1) p)
  end.

(** The arithmetic of [f32]; [T] as in [f64ops], here the single precision functions. *)
Definition f32ops (T : libm) : Fops spec_float := {|
  f_zero := S754_zero false;
  f_one := sf32_of_Z 1;
  f_half := SFdiv prec32 emax32 (sf32_of_Z 1) (sf32_of_Z 2);
  f_of_Z := sf32_of_Z;
  f_add := SFadd prec32 emax32;
  f_sub := SFsub prec32 emax32;
  f_mul := SFmul prec32 emax32;
  f_div := SFdiv prec32 emax32;
  f_neg := SFopp;
  f_abs := SFabs;
  f_sin := l_sin T;
  f_cos := l_cos T;
  f_tan := l_tan T;
  f_exp := l_exp T;
  f_ln := l_ln T;
  f_asin := l_asin T;
  f_acos := l_acos T;
  f_atan := l_atan T;
  f_sqrt := SFsqrt prec32 emax32;
  f_powf := l_powf T;
  f_powi := sf32_powi;
  f_eqb := SFeqb;
  f_ltb := SFltb
|}.

(** [NumCast::from : f32 -> Option<f64>] is [f as f64]: always defined, and exact. *)
Definition widen (x : spec_float) : spec_float :=
  match x with
  | S754_finite s m e => binary_normalize prec64 emax64 (cond_Zopp s (Zpos m)) e s
  | _ => x
  end.
Definition tof32 (x : spec_float) : option spec_float := Some (widen x).
