(** Specification vocabulary for the abs-normal form: vectors and matrices of real numbers, what
    it means that a matrix describes a tape, and the abs-normal equations. *)
From Coq Require Import Reals List Arith Bool.
From Verif Require Import Base Float Operation Tape Spec RealInst DerivSpec Matrix AbsNormal.
Import ListNotations.
Open Scope R_scope.

Definition vsub (x y : list R) : list R := map (fun p => fst p - snd p) (combine x y).
Definition vabs (x : list R) : list R := map Rabs x.
Definition vmul (x y : list R) : list R := map (fun p => fst p * snd p) (combine x y).

(** Matrix times vector, vector times matrix, matrix times matrix (mathematical definitions). *)
Definition mulv (A : matrix R) (x : list R) : list R := map (fun row => dot row x) (m_dat A).
Definition row (A : matrix R) (i : nat) : list R := nth i (m_dat A) [].
Definition col (A : matrix R) (j : nat) : list R := map (fun r => nth j r 0) (m_dat A).
Definition vmulm (x : list R) (A : matrix R) : list R :=
  map (fun j => dot x (col A j)) (seq 0 (m_cols A)).
Definition mm (A B : matrix R) : matrix R :=
  m_tab (m_rows A) (m_cols B) (fun i j => dot (row A i) (col B j)).

(** [A] is an r x c matrix. *)
Definition shape (A : matrix R) (r c : nat) : Prop := wf_mat A /\ m_rows A = r /\ m_cols A = c.

(** The tape's forward sweep is multiplication by [A]. *)
Definition represents (t : tape R) (A : matrix R) : Prop :=
  shape A (num_deps t) (num_indeps t) /\
  forall dx, length dx = num_indeps t -> tape_forward Rops t dx = Ok (mulv A dx).

(** The six components of an abs-normal form: the matrices describe the four sub-tapes, the
    vectors are z - L|z| and -Y|z| for the recorded switching values z. *)
Record anf_of (t : tape R) (N : anf) : Prop := {
  ao_tapes : exists a z, an_new t = Ok a /\ an_z a = Ok z /\
    represents (z_tape a) (f_zmat N) /\ represents (l_tape a) (f_lmat N) /\
    represents (j_tape a) (f_jmat N) /\ represents (y_tape a) (f_ymat N) /\
    f_a N = vsub z (mulv (f_lmat N) (vabs z)) /\
    f_b N = map Ropp (mulv (f_ymat N) (vabs z))
}.

(** [zh] solves the switching system zh = a + Z dx + L |zh|. *)
Definition switching (N : anf) (dx zh : list R) : Prop :=
  length zh = length (f_a N) /\
  zh = vadd (vadd (f_a N) (mulv (f_zmat N) dx)) (mulv (f_lmat N) (vabs zh)).

(** The increment the abs-normal form predicts: b + J dx + Y |zh|. *)
Definition increment (N : anf) (dx zh : list R) : list R :=
  vadd (vadd (f_b N) (mulv (f_jmat N) dx)) (mulv (f_ymat N) (vabs zh)).

(** Row i of [L] has zeros from column i on. *)
Definition strictly_lower (L : matrix R) : Prop :=
  forall i j, (i <= j)%nat -> (j < m_cols L)%nat -> ent Rops L i j = 0.
