(** Model of the example programs examples/floyd_warshall.rs and examples/perceptron.rs. *)
From Coq Require Import List Arith ZArith NArith Bool.
From Verif Require Import Base Float Operation Tape AContext Methods Function Matrix Jacobian AbsNormal
  Checkpoint GenJac Build.
Import ListNotations.

Section Programs.
Context {F : Type} (Fo : Fops F).

(** ** examples/floyd_warshall.rs *)

(** floyd_warshall.rs:15-25 [floyd_warshall_init]: [inf.into()] is made once and copied; the state
    is the vector [dmat], [n] and [k] are parameters here *)
Definition fw_init (n : nat) (inf : F) : builder F (list nat) :=
  c <b b_const inf ;;
  b_for (fun dm i => z <b b_const (f_zero Fo) ;; b_set dm (i * n + i) z) (seq 0 n) (repeat c (n * n)).

(** floyd_warshall.rs:28-37 [floyd_warshall_set_edge] *)
Definition fw_set_edge (n : nat) (dm : list nat) (u v weight : nat) : builder F (list nat) :=
  dm <b b_set dm (u * n + v) weight ;; b_set dm (v * n + u) weight.

(** floyd_warshall.rs:40-43 [floyd_warshall_get_edge] *)
Definition fw_get_edge (n : nat) (dm : list nat) (u v : nat) : builder F nat := b_get dm (u * n + v).

(** floyd_warshall.rs:46-58 [floyd_warshall_step]: the two nested loops run over all pairs in
    lexicographic order *)
Definition fw_cell (n k : nat) (dm : list nat) (ij : nat * nat) : builder F (list nat) :=
  let '(i, j) := ij in
  d <b b_get dm (i * n + j) ;; a <b b_get dm (i * n + k) ;; b <b b_get dm (k * n + j) ;;
  s <b b_bin BAdd a b ;; m <b b_bin BMin d s ;; b_set dm (i * n + j) m.
Definition fw_step (n k : nat) (dm : list nat) : builder F (list nat) :=
  b_for (fw_cell n k) (list_prod (seq 0 n) (seq 0 n)) dm.

(** floyd_warshall.rs:90-97 [new_traffic_light]: top_bottom_quota and left_right_quota.  The
    literals 0.01 and 0.99 are the quotients by 100 (correctly rounded: the same numbers) *)
Definition new_traffic_light (q : nat) : builder F (nat * nat) :=
  lo <b b_const (f_div Fo (f_one Fo) (f_of_Z Fo 100)) ;; t <b b_bin BMax q lo ;;
  hi <b b_const (f_div Fo (f_of_Z Fo 99) (f_of_Z Fo 100)) ;; tb <b b_bin BMin t hi ;;
  one <b b_const (f_one Fo) ;; lr <b b_bin BSub one tb ;; b_ret (tb, lr).

(** An edge of the example: its ends and the quota its weight depends on: the number of the traffic
    light and whether it is [top_bottom_quota]. *)
Definition edge : Type := nat * nat * (nat * bool).

(** floyd_warshall.rs:111-134: [floyd_warshall_set_edge(&mut graph, u, v, 1.0 + 1.0 / quota)] *)
Definition fw_edge (n : nat) (lights : list (nat * nat)) (dm : list nat) (e : edge) : builder F (list nat) :=
  let '(u, v, (l, top)) := e in
  match nth_error lights l with
  | None => b_abort (* a light that does not exist: excluded by the names in Rust *)
  | Some (tb, lr) =>
      one1 <b b_const (f_one Fo) ;; q <b b_bin BDiv one1 (if top then tb else lr) ;;
      one2 <b b_const (f_one Fo) ;; w <b b_bin BAdd one2 q ;; fw_set_edge n dm u v w
  end.

(** floyd_warshall.rs:99-136: what is recorded on [tape_init], for any number of traffic lights,
    vertices and edges *)
Definition fw_graph (n nlights : nat) (inf : F) (edges : list edge) : func F :=
  Simple nlights (n * n) (b_body nlights (fun x =>
    lights <b b_for (fun ls q => l <b new_traffic_light q ;; b_ret (ls ++ [l])) x [] ;;
    dm <b fw_init n inf ;;
    b_for (fw_edge n lights) edges dm)).

(** floyd_warshall.rs:139-149 [tape_step]: what is recorded *)
Definition fw_step_fn (n k : nat) : func F :=
  Simple (n * n) (n * n) (b_body (n * n) (fw_step n k)).

(** floyd_warshall.rs:152-162 [badness], 164-174 what is recorded on [tape_badness] *)
Definition fw_badness (n : nat) (exits : list nat) (dm : list nat) : builder F (list nat) :=
  z <b b_const (f_zero Fo) ;;
  r <b b_for (fun r uv => e <b fw_get_edge n dm (fst uv) (snd uv) ;; s <b b_bin BMul e e ;; b_bin BAdd r s)
         (list_prod exits exits) z ;;
  b_ret [r].
Definition fw_badness_fn (n : nat) (exits : list nat) : func F :=
  Simple (n * n) 1 (b_body (n * n) (fw_badness n exits)).

(** The tapes: recorded at zeros (floyd_warshall.rs:103-108, 145, 169), then replayed.  The contexts
    are modelled by [Function::tape], which makes the same calls. *)
Definition record0 (f : func F) : M (world F) (tape F) :=
  n <~ mlift (fn_n f) ;; fn_tape Fo f (repeat (f_zero Fo) n).
Definition replay (f : func F) (x : list F) : M (world F) (list F) :=
  t <~ record0 f ;; t' <~ mlift (tape_zero_order Fo t x) ;; mlift (tape_y t').

(** floyd_warshall.rs:176-188: the closure [zero_order]; the tapes that Rust records once and clones
    are recorded again here (C07: the same tapes) *)
Fixpoint replay_all (fs : list (func F)) (x : list F) : M (world F) (list F) :=
  match fs with
  | [] => mret x
  | f :: fs' => y <~ replay f x ;; replay_all fs' y
  end.
Definition fw_stages (n nlights : nat) (inf : F) (edges : list edge) (exits : list nat) : list (func F) :=
  fw_graph n nlights inf edges :: map (fw_step_fn n) (seq 0 n) ++ [fw_badness_fn n exits].
Definition fw_value (n nlights : nat) (inf : F) (edges : list edge) (exits : list nat) (params : list F)
  : M (world F) F :=
  y <~ replay_all (fw_stages n nlights inf edges exits) params ;; mlift (get y 0).

(** floyd_warshall.rs:190-227: the closure [calculate_gradient]; the state is the number of the stage
    and the vector entering it; [red] as in Matrix.v, [est] as in Checkpoint.v *)
Definition fw_gradient (red : list (list (nat * list F)) -> list (nat * list F)) (est : Z -> Z -> Z)
  (n nlights : nat) (inf : F) (edges : list edge) (exits : list nat) (params : list F)
  : M (world F) (matrix F) :=
  let stages := fw_stages n nlights inf edges exits in
  let forward := fun st : nat * list F =>
    f <~ mlift (unwrap (nth_error stages (fst st))) ;; y <~ replay f (snd st) ;; mret (fst st + 1, y) in
  let reverse := fun (st : nat * list F) (g : gjac F) =>
    f <~ mlift (unwrap (nth_error stages (fst st))) ;; t <~ record0 f ;;
    t' <~ mlift (tape_zero_order Fo t (snd st)) ;;
    mlift (generalized_jacobian_tape Fo red t' (repeat (f_zero Fo) (length (snd st))) [0%N] (Some g)) in
  let identity := fun _ : nat * list F => mret (mkG (m_id Fo 1) [f_zero Fo] 0) in
  g <~ reverse_sequence est forward reverse identity (0, params) (n + 2) n ;;
  mret (m_tab (m_cols (g_hom g)) (m_rows (g_hom g)) (fun i j => ent Fo (g_hom g) j i)).

(** floyd_warshall.rs:61-62, 100-134: the example's own numbers *)
Definition ex_n : nat := 23.
Definition ex_inf : F := f_of_Z Fo 10000.
Definition ex_edges : list edge :=
  [(0, 3, (0, true)); (1, 5, (1, true)); (2, 3, (0, false)); (3, 4, (0, false)); (4, 5, (1, false));
   (5, 6, (1, false)); (3, 7, (0, true)); (5, 8, (0, true)); (7, 10, (2, true)); (8, 12, (3, true));
   (9, 10, (2, false)); (10, 11, (2, false)); (11, 12, (3, false)); (12, 13, (3, false));
   (10, 14, (2, true)); (12, 15, (2, true)); (14, 17, (4, true)); (15, 19, (5, true));
   (16, 17, (4, false)); (17, 18, (4, false)); (18, 19, (5, false)); (19, 20, (5, false));
   (17, 21, (4, true)); (19, 22, (4, true))].
Definition ex_exits : list nat := [0; 1; 2; 6; 9; 13; 16; 20; 21; 22].

(** ** examples/perceptron.rs *)

(** perceptron.rs:7-10 [sigmoid] *)
Definition sigmoid (x : nat) : builder F nat :=
  e <b b_un UExp x ;; one <b b_const (f_one Fo) ;; d <b b_bin BAdd e one ;; b_bin BDiv e d.

(** perceptron.rs:13-31 [multilayer_perceptron]; the assertions on the lengths of the slices are
    replaced by a panic when an entry is missing; [T::from(inputs[i]).unwrap()] is the constant *)
Definition perceptron (input : F * F) (w1 b1 w2 b2 : list nat) : builder F nat :=
  i0 <b b_const (fst input) ;; i1 <b b_const (snd input) ;;
  w10 <b b_get w1 0 ;; w11 <b b_get w1 1 ;; w12 <b b_get w1 2 ;; w13 <b b_get w1 3 ;;
  b10 <b b_get b1 0 ;; b11 <b b_get b1 1 ;; w20 <b b_get w2 0 ;; w21 <b b_get w2 1 ;; b20 <b b_get b2 0 ;;
  p <b b_bin BMul i0 w10 ;; q <b b_bin BMul i1 w11 ;; s <b b_bin BAdd p q ;; s <b b_bin BAdd s b10 ;;
  h1 <b sigmoid s ;;
  p <b b_bin BMul i0 w12 ;; q <b b_bin BMul i1 w13 ;; s <b b_bin BAdd p q ;; s <b b_bin BAdd s b11 ;;
  h2 <b sigmoid s ;;
  p <b b_bin BMul h1 w20 ;; q <b b_bin BMul h2 w21 ;; s <b b_bin BAdd p q ;; s <b b_bin BAdd s b20 ;;
  sigmoid s.

(** perceptron.rs:40-45 (and 47-66): the square of the difference, computed twice as in the source *)
Definition squared_error (input : F * F) (expected : F) (w1 b1 w2 b2 : list nat) : builder F nat :=
  e <b b_const expected ;; a <b perceptron input w1 b1 w2 b2 ;;
  d1 <b b_bin BSub a e ;; d2 <b b_bin BSub a e ;; b_bin BMul d1 d2.

(** perceptron.rs:34-69 [xor_error] *)
Definition xor_error (w1 b1 w2 b2 : list nat) : builder F nat :=
  e1 <b squared_error (f_zero Fo, f_zero Fo) (f_zero Fo) w1 b1 w2 b2 ;;
  e2 <b squared_error (f_zero Fo, f_one Fo) (f_one Fo) w1 b1 w2 b2 ;;
  e3 <b squared_error (f_one Fo, f_zero Fo) (f_one Fo) w1 b1 w2 b2 ;;
  e4 <b squared_error (f_one Fo, f_one Fo) (f_zero Fo) w1 b1 w2 b2 ;;
  s <b b_bin BAdd e1 e2 ;; s <b b_bin BAdd s e3 ;; b_bin BAdd s e4.

(** perceptron.rs:78-94: what is recorded *)
Definition xor_fn : func F :=
  Simple 9 1 (b_body 9 (fun x =>
    e <b xor_error (firstn 4 x) (firstn 2 (skipn 4 x)) (firstn 2 (skipn 6 x)) (skipn 8 x) ;; b_ret [e])).

(** perceptron.rs:71-74 [gradient], before the transposition *)
Definition xor_gradient (red : list (list (nat * list F)) -> list (nat * list F)) (t : tape F) (params : list F)
  : res (matrix F) :=
  t' <- tape_zero_order Fo t params ;; jacobian_reverse Fo red t'.

End Programs.
