(** Rounding errors of the abs-normal form and of the generalized Jacobian. *)
From Coq Require Import Reals Lra Lia ZArith Bool List SpecFloat.
From Flocq Require Import Core BinarySingleNaN.
From Verif Require Import Base Float FloatInst Operation Tape AContext Methods Function Spec TapeFacts RealInst F64Facts F64Ops FopsRel BallSpec BallFacts BallMain
  DerivSpec LinearFacts Matrix MatrixFacts AbsNormal AbsNormalFacts AnfSpec RVec AnfFacts AnfFacts2 GenJac GenSpec GenFacts DriverSpec DriverPanics Shape RecordFacts ReplayFacts Replay2 EstF64
  GenBallSpec RelDrivers RelGen GenBallFacts.
Import ListNotations.
Local Open Scope R_scope.

Lemma wf_same2 {F G} (t : tape F) (t' : tape G) : wf_tape t -> t_indeps t' = t_indeps t -> t_deps t' = t_deps t -> t_ops t' = t_ops t ->
  length (t_vals t') = length (t_vals t) -> wf_tape t'.
Proof. intros [A B C D E H] E1 E2 E3 E4. constructor; rewrite ?E1, ?E2, ?E3, ?E4; auto. Qed.

(** The values the driver compares with zero are the switching values of the abs-normal form. *)
Lemma switching_values_exact red (t : tape R) (N : anf) dx : rayon red -> wf_tape t -> anf_of t N -> length dx = num_indeps t ->
  exists dz, switching_values Rops red t dx = Ok dz /\ switching N dx dz.
Proof.
  intros HR W HN Ldx. pose proof (anf_lower t N W HN) as Low.
  pose proof HN as [(a & z & EN & EZ & Rz & Rl & Rj & Ry & Ea & Eb)].
  destruct (subtapes_ok t a W EN) as (HS & N1 & N2 & N3 & N4 & N5 & N6 & N7 & N8).
  assert (shape (f_zmat N) (num_abs t) (num_indeps t)) as SZ by (rewrite <- N1, <- N2; apply Rz).
  assert (shape (f_lmat N) (num_abs t) (num_abs t)) as SL by (rewrite <- N3 at 2; rewrite <- N4 at 1; apply Rl).
  destruct (an_z_ok t a W EN) as (z' & EZ' & Lz). assert (z' = z) as -> by congruence.
  assert (length (f_a N) = num_abs t) as Lfa.
  { rewrite Ea, vsub_len; auto. rewrite (mulv_len _ _ _ _ SL). auto. }
  unfold switching_values.
  rewrite EN. cbn [bind]. rewrite EZ. cbn [bind]. change (v_abs Rops z) with (vabs z).
  rewrite (mul_right_vec_ok red _ _ _ HR Rl) by (rewrite vabs_len; congruence). cbn [bind].
  rewrite v_sub_ok by (rewrite (mulv_len _ _ _ _ SL); auto). cbn [bind]. rewrite <- Ea.
  rewrite (mul_right_vec_ok red _ _ _ HR Rz) by congruence. cbn [bind].
  rewrite v_add_ok by (rewrite (mulv_len _ _ _ _ SZ); auto). cbn [bind].
  set (c := vadd (f_a N) (mulv (f_zmat N) dx)).
  assert (length c = num_abs t) as Lc by (unfold c; rewrite vadd_len; rewrite ?(mulv_len _ _ _ _ SZ); auto).
  destruct (dz_loop_ok red _ _ c (num_abs t) HR Rl SL N3 Low Lc) as (dz & -> & Ldz & Edz).
  exists dz. split; [auto|]. unfold switching. split; [|exact Edz]. congruence.
Qed.

Section Main.
Context (T : libm) (HT : libm_accurate T).
Context (red : list (list (nat * list spec_float)) -> list (nat * list spec_float))
  (redb : list (list (nat * list ball)) -> list (nat * list ball)) (redr : list (list (nat * list R)) -> list (nat * list R)).
Hypothesis HR : rayon red.
Hypothesis HRb : rayon redb.
Hypothesis HRr : rayon redr.

Theorem early_exit (t : tape spec_float) dx bits next : wf_tape t -> wf_next next -> next_fits (num_deps t) next ->
  length dx = num_indeps t ->
  exists G H, generalized_jacobian_tape (f64ops T) red t dx bits next = Ok G /\ gj_no_exit (f64ops T) red t dx bits next = Ok H /\
    same_gjac G H.
Proof.
  intros W WN NF LD. destruct (gj_tape_total (f64ops T) red HR t dx bits next W WN LD NF) as (G & EG & _).
  pose proof (no_exit_same (f64ops T) same_number (f64_eq_like T) red HR t dx bits next W WN NF) as X. rewrite EG in X.
  apply rrel_ok' in X as (H & EH & [A B C] & X2 & X3). exists G, H. repeat split; auto.
Qed.

Context (t : tape spec_float) (x : list spec_float) (t64 : tape spec_float) (tb : tape ball) (tr : tape R).
Hypothesis W : wf_tape t.
Hypothesis L : length x = num_indeps t.
Hypothesis HP : replays T t x t64 tb tr.

Lemma three_wf : close t64 tb tr /\ wf_tape t64 /\ wf_tape tb /\ wf_tape tr.
Proof.
  destruct (replay_det T HT t x W L t64 tb tr HP) as (C & Wb & _). pose proof C as [[a1 a2 a3 a4] [b1 b2 b3 b4]].
  split; [auto|]. split; [|split; [auto|]]; (eapply wf_same2; [exact Wb|..]; auto; apply F2_len in a4, b4; auto).
Qed.
Lemma three_ops : t_indeps tr = t_indeps t /\ t_deps tr = t_deps t /\ t_ops tr = t_ops t /\
  t_indeps t64 = t_indeps t /\ t_deps t64 = t_deps t /\ t_ops t64 = t_ops t /\
  t_indeps tb = t_indeps t /\ t_deps tb = t_deps t /\ t_ops tb = t_ops t.
Proof.
  destruct (replay_det T HT t x W L t64 tb tr HP) as (C & Wb & A1 & A2 & A3). pose proof C as [[a1 a2 a3 a4] [b1 b2 b3 b4]].
  repeat split; congruence.
Qed.

Theorem abs_normal_error : exists N Nb Nr,
  abs_normal_tape (f64ops T) red t64 = Ok N /\ abs_normal_tape Bops redb tb = Ok Nb /\ abs_normal_tape Rops redr tr = Ok Nr /\
  bounded_mat (f_zmat N) (f_zmat Nb) (f_zmat Nr) /\ bounded_mat (f_lmat N) (f_lmat Nb) (f_lmat Nr) /\
  bounded_mat (f_jmat N) (f_jmat Nb) (f_jmat Nr) /\ bounded_mat (f_ymat N) (f_ymat Nb) (f_ymat Nr) /\
  bounded (f_a N) (f_a Nb) (f_a Nr) /\ bounded (f_b N) (f_b Nb) (f_b Nr).
Proof.
  destruct three_wf as ([C1 C2] & W64 & Wb & Wr).
  destruct (abs_normal_total Bops redb HRb tb Wb) as (Nb & EB & _).
  pose proof (rel_abs_normal _ _ _ (inside_related T HT) red redb HR HRb _ _ C1) as X.
  pose proof (rel_abs_normal _ _ _ about_related redb redr HRb HRr _ _ C2) as Y. rewrite EB in X, Y.
  apply rrel_ok in X as (N & EN & [x1 x2 x3 x4 x5 x6]). apply rrel_ok' in Y as (Nr & ER & [y1 y2 y3 y4 y5 y6]).
  exists N, Nb, Nr. do 3 (split; [auto|]). do 4 (split; [apply bounded_mat_of; auto|]). split; apply bounded_of; auto.
Qed.

Section Direction.
Context (dx : list spec_float).
Hypothesis Ldx : length dx = num_indeps t.

Lemma switching_rel : exists dz db dr,
  switching_values (f64ops T) red t64 dx = Ok dz /\ switching_values Bops redb tb (map point dx) = Ok db /\
  switching_values Rops redr tr (map real_of dx) = Ok dr /\ Forall2 inside dz db /\ Forall2 about db dr.
Proof.
  destruct three_wf as ([C1 C2] & W64 & Wb & Wr). pose proof three_ops as (I1 & D1 & O1 & I2 & D2 & O2 & I3 & D3 & O3).
  destruct (anf_exists tr Wr) as [N HN].
  destruct (switching_values_exact redr tr N (map real_of dx) HRr Wr HN) as (dr & ER & _).
  { rewrite map_length. unfold num_indeps in *. congruence. }
  pose proof (rel_switching_values _ _ _ _ _ (inside_related T HT) (f64_eq_like T) ball_eq_like red redb HR HRb _ _ _ _ C1 (inside_points dx)) as X.
  pose proof (rel_switching_values _ _ _ _ _ about_related ball_eq_like R_eq_like redb redr HRb HRr _ _ _ _ C2 (about_points dx)) as Y.
  rewrite ER in Y. apply rrel_ok in Y as (db & EB & HB). rewrite EB in X. apply rrel_ok in X as (dz & EZ & HZ).
  exists dz, db, dr. auto.
Qed.

Theorem switching_error : exists dz db dr,
  switching_values (f64ops T) red t64 dx = Ok dz /\ switching_values Bops redb tb (map point dx) = Ok db /\
  switching_values Rops redr tr (map real_of dx) = Ok dr /\ bounded dz db dr /\
  forall N, anf_of tr N -> switching N (map real_of dx) dr.
Proof.
  destruct switching_rel as (dz & db & dr & A & B & C & D & E). exists dz, db, dr. do 3 (split; [auto|]).
  split; [apply bounded_of; auto|]. intros N HN. destruct three_wf as (_ & _ & _ & Wr).
  pose proof three_ops as (I1 & _).
  destruct (switching_values_exact redr tr N (map real_of dx) HRr Wr HN) as (dr' & ER & HS).
  { rewrite map_length. unfold num_indeps in *. congruence. }
  congruence.
Qed.

Theorem gj_error bits db : switching_values Bops redb tb (map point dx) = Ok db -> Forall decided db ->
  exists G Gb Gr,
    generalized_jacobian_tape (f64ops T) red t64 dx bits None = Ok G /\
    generalized_jacobian_tape Bops redb tb (map point dx) bits None = Ok Gb /\
    generalized_jacobian_tape Rops redr tr (map real_of dx) bits None = Ok Gr /\
    g_mult G = g_mult Gr /\ bounded_mat (g_hom G) (g_hom Gb) (g_hom Gr) /\ bounded (g_inh G) (g_inh Gb) (g_inh Gr).
Proof.
  intros EB DB. destruct switching_rel as (dz & db' & dr & EZ & EB' & ER & HZ & HB). assert (db' = db) as -> by congruence.
  destruct three_wf as ([C1 C2] & W64 & Wb & Wr). pose proof three_ops as (I1 & D1 & O1 & I2 & D2 & O2 & I3 & D3 & O3).
  destruct (gj_tape_total Bops redb HRb tb (map point dx) bits None Wb I) as (Gb & EG & _); [|exact I|].
  { rewrite map_length. unfold num_indeps in *. congruence. }
  pose proof (rel_gj _ _ _ _ _ (inside_related T HT) (f64_eq_like T) ball_eq_like inside_compat red redb HR HRb t64 tb dx (map point dx) bits None None
    C1 W64 Wb (inside_points dx) I I I I) as X.
  pose proof (rel_gj _ _ _ _ _ about_related ball_eq_like R_eq_like about_compat redb redr HRb HRr tb tr (map point dx) (map real_of dx) bits None None
    C2 Wb Wr (about_points dx) I I I I) as Y.
  rewrite EG in X, Y. lapply X; [clear X; intros X|]. lapply Y; [clear Y; intros Y|].
  - apply rrel_ok in X as (G & E64 & [x1 x2 x3]). apply rrel_ok' in Y as (Gr & Er & [y1 y2 y3]).
    exists G, Gb, Gr. do 3 (split; [auto|]). split; [congruence|]. split; [apply bounded_mat_of; auto|apply bounded_of; auto].
  - intros d1 d2 E1 E2. replace d1 with db by congruence. replace d2 with dr by congruence.
    eapply F2_sign'; [exact about_sign|exact HB|exact DB].
  - intros d1 d2 E1 E2. replace d1 with dz by congruence. replace d2 with db by congruence.
    eapply F2_sign; [apply inside_sign|exact HZ|exact DB].
Qed.

(** What the exact result is: the linear piece the switching values select. *)
Theorem gj_error_piece bits db N : switching_values Bops redb tb (map point dx) = Ok db -> Forall decided db ->
  NoDup (t_deps t) -> abs_once t -> anf_of tr N ->
  exists G Gb Gr dr sigma,
    generalized_jacobian_tape (f64ops T) red t64 dx bits None = Ok G /\
    generalized_jacobian_tape Bops redb tb (map point dx) bits None = Ok Gb /\
    generalized_jacobian_tape Rops redr tr (map real_of dx) bits None = Ok Gr /\
    g_mult G = zeros dr /\ bounded_mat (g_hom G) (g_hom Gb) (g_hom Gr) /\ bounded (g_inh G) (g_inh Gb) (g_inh Gr) /\
    switching N (map real_of dx) dr /\ selected bits dr sigma /\
    forall dx' dy', length dx' = num_indeps t -> compatible N sigma dx' ->
      tape_forward Rops tr dx' = Ok dy' -> vadd (mulv (g_hom Gr) dx') (g_inh Gr) = dy'.
Proof.
  intros EB DB ND AO HN. destruct (gj_error bits db EB DB) as (G & Gb & Gr & E1 & E2 & E3 & M & H1 & H2).
  destruct three_wf as (_ & _ & _ & Wr). pose proof three_ops as (I1 & D1 & O1 & _).
  destruct (gj_tape_correct redr tr N (map real_of dx) bits None HRr Wr) as (G' & dz & sigma & E3' & HS & HSel & HM & _ & _ & HF).
  - congruence.
  - intros args EA. apply (abs_args_nodup tr args); [|exact EA]. unfold abs_once in *. now rewrite O1.
  - exact HN.
  - rewrite map_length. unfold num_indeps in *. congruence.
  - exact I.
  - assert (G' = Gr) as -> by congruence. exists G, Gb, Gr, dz, sigma. do 3 (split; [auto|]).
    split; [cbn in HM; lia|]. do 4 (split; [auto|]). intros dx' dy' L'. apply HF. unfold num_indeps in *. congruence.
Qed.
End Direction.
End Main.

(** A function: the tape it records is its own replay. *)
Theorem gj_function_error T red redb redr (f : func spec_float) x dx bits w t w' : libm_accurate T ->
  rayon red -> rayon redb -> rayon redr -> fn_n f = Ok (length x) -> length dx = length x ->
  fn_tape (f64ops T) f x w = Ok (t, w') ->
  exists tb tr db, replays T t x t tb tr /\ switching_values Bops redb tb (map point dx) = Ok db /\
    (Forall decided db -> exists G Gb Gr,
      generalized_jacobian (f64ops T) red f x dx bits None w = Ok (G, w') /\
      generalized_jacobian_tape Bops redb tb (map point dx) bits None = Ok Gb /\
      generalized_jacobian_tape Rops redr tr (map real_of dx) bits None = Ok Gr /\
      g_mult G = g_mult Gr /\ bounded_mat (g_hom G) (g_hom Gb) (g_hom Gr) /\ bounded (g_inh G) (g_inh Gb) (g_inh Gr)).
Proof.
  intros HT HR HRb HRr HN LD ET.
  destruct (fn_tape_wf _ _ _ _ _ _ ET) as ([W _] & _ & _). destruct (fresh _ _ _ _ _ _ ET) as (_ & NI & EZ & _).
  destruct (replay_close T HT t x W (eq_sym NI)) as (t64 & tb & tr & HP & _). pose proof HP as (E1 & _).
  assert (t64 = t) as -> by congruence.
  assert (length dx = num_indeps t) as LD' by lia.
  destruct (switching_error T HT red redb redr HR HRb HRr t x t tb tr W (eq_sym NI) HP dx LD') as (dz & db & dr & _ & EB & _).
  exists tb, tr, db. split; [auto|]. split; [auto|]. intros DB.
  destruct (gj_error T HT red redb redr HR HRb HRr t x t tb tr W (eq_sym NI) HP dx LD' bits db EB DB) as (G & Gb & Gr & E2 & E3 & E4 & H).
  exists G, Gb, Gr. split; [|auto]. unfold generalized_jacobian, mbind, mlift. rewrite HN. cbn [bind].
  rewrite Nat.eqb_refl. cbn [assert]. rewrite ET, E2. reflexivity.
Qed.

(** ** Example: |x0 x1 - 7| + |x1 - |x0|| at (2, 3) in the direction (4, -9), with exact balls *)
Definition chk (n : Z) : option Z := if (Z.abs n <=? 2 ^ 53)%Z then Some n else None.
Definition z2 (f : Z -> Z -> Z) (a b : option Z) : option Z := match a, b with Some x, Some y => chk (f x y) | _, _ => None end.
Definition z1 (f : Z -> Z) (a : option Z) : option Z := match a with Some x => Some (f x) | _ => None end.
Definition Zops : Fops (option Z) := {|
  f_zero := Some 0%Z; f_one := Some 1%Z; f_half := None; f_of_Z := chk;
  f_add := z2 Z.add; f_sub := z2 Z.sub; f_mul := z2 Z.mul; f_div := fun _ _ => None; f_neg := z1 Z.opp; f_abs := z1 Z.abs;
  f_sin := fun _ => None; f_cos := fun _ => None; f_tan := fun _ => None; f_exp := fun _ => None; f_ln := fun _ => None;
  f_asin := fun _ => None; f_acos := fun _ => None; f_atan := fun _ => None; f_sqrt := fun _ => None; f_powf := fun _ _ => None;
  f_powi := fun _ _ => None; f_eqb := fun _ _ => false; f_ltb := fun _ _ => false
|}.
Definition exactly (z : option Z) (b : ball) : Prop := match z with Some n => b = Some (IZR n, 0) | None => True end.
Lemma rounded_Z n m e c : chk n = Some m -> c = IZR n -> e = 0 -> rounded c e = Some (IZR m, 0).
Proof.
  unfold chk. destruct (Z.leb_spec (Z.abs n) (2 ^ 53)) as [H|]; [|discriminate]. intros [= <-] -> ->. unfold rounded.
  assert (Rabs (IZR n) + 0 <= huge) as B.
  { rewrite Rplus_0_r, <- abs_IZR. apply Rle_trans with (IZR (2 ^ 53)); [now apply IZR_le|]. unfold huge.
    change (2 ^ 53)%Z with (Z.pow 2 (Z.of_nat 53)). rewrite <- pow_IZR. apply Rle_pow; [lra|lia]. }
  unfold rleb. destruct (Rle_dec _ _); [|contradiction]. unfold Reqb. destruct (Req_EM_T 0 0); [|contradiction].
  rewrite rnd_exact by auto. rewrite Rminus_eq_0, Rabs_R0. reflexivity.
Qed.
Lemma exactly_related : ops_related Zops Bops exactly.
Proof.
  constructor; cbn; auto; intros.
  - destruct a as [n|], b as [m|]; cbn in *; auto. subst. destruct (chk (n + m)) as [q|] eqn:E; cbn; auto.
    eapply rounded_Z; [exact E|symmetry; apply plus_IZR|lra].
  - destruct a as [n|], b as [m|]; cbn in *; auto. subst. destruct (chk (n - m)) as [q|] eqn:E; cbn; auto.
    eapply rounded_Z; [exact E|symmetry; apply minus_IZR|lra].
  - destruct a as [n|], b as [m|]; cbn in *; auto. subst. destruct (chk (n * m)) as [q|] eqn:E; cbn; auto.
    eapply rounded_Z; [exact E|symmetry; apply mult_IZR|lra].
  - destruct a as [n|]; cbn in *; auto. subst. cbn. now rewrite opp_IZR.
  - destruct a as [n|]; cbn in *; auto. subst. cbn. now rewrite abs_IZR.
  - unfold z2. destruct b; exact I.
Qed.
Lemma Z_eq_like : eq_like Zops eq.
Proof. constructor; cbn; intros; subst; auto; try discriminate. Qed.

Definition ab_tape {F} (u c : F) : tape F :=
  mkTape [0; 1]%nat [9]%nat
    [op_constant 2; op_mul 3 0 1; op_sub 4 3 2; op_abs 5 4; op_abs 6 0; op_sub 7 1 6; op_abs 8 7; op_add 9 5 8]%nat
    [u; u; c; u; u; u; u; u; u; u].
Lemma point_lit n : (Z.abs n <= 2 ^ 53)%Z -> valid_binary prec64 emax64 (lit n) && is_finite_SF (lit n) = true ->
  point (lit n) = Some (IZR n, 0).
Proof.
  intros B V. eapply point_Z; [reflexivity|exact V|]. apply (f64_val (sf_of_Z n) (IZR n)). replace (IZR n) with (rnd (IZR n)) by (apply rnd_exact; auto).
  apply f64_of_Z. rewrite <- abs_IZR. apply Rle_trans with (IZR (2 ^ 53)); [now apply IZR_le|].
  change (IZR (2 ^ 53)) with (bpow radix2 53). apply bpow_le. lia.
Qed.
Lemma ab_wf : wf_tape (ab_tape S754_nan (lit 7)).
Proof.
  constructor; cbn.
  - intros o Ho. repeat (destruct Ho as [<-|Ho]); try contradiction; unfold wf_op; cbn;
      repeat first [split | lia | reflexivity | (eexists; split; [reflexivity|lia])]; auto.
  - repeat constructor.
  - intuition lia.
  - repeat constructor; cbn; intuition lia.
  - intros i [<-|[<-|[]]] H; cbn in H; repeat (destruct H as [H|H]; [discriminate|]); exact H.
  - intuition lia.
Qed.
Lemma ab_example : exists tb db,
  tape_zero_order Bops (map_tape point (ab_tape S754_nan (lit 7))) (map point [lit 2; lit 3]) = Ok tb /\
  switching_values Bops (@concat _) tb (map point [lit 4; lit (-9)]) = Ok db /\ Forall decided db /\
  db = [Some (-7, 0); Some (6, 0); Some (-12, 0)].
Proof.
  assert (tapes_related exactly (ab_tape None (Some 7%Z)) (map_tape point (ab_tape S754_nan (lit 7)))) as HC.
  { constructor; try reflexivity. cbn [map_tape ab_tape t_vals map]. rewrite (point_lit 7) by (lia || (vm_compute; reflexivity)).
    repeat constructor. }
  pose proof (rel_tape_zero _ _ _ exactly_related _ _ [Some 2; Some 3]%Z (map point [lit 2; lit 3]) HC) as X.
  lapply X; [clear X; intros X|].
  2: { cbn [map]. rewrite (point_lit 2), (point_lit 3) by (lia || (vm_compute; reflexivity)). repeat constructor. }
  set (tz := tape_zero_order Zops _ _) in X. vm_compute in tz. subst tz. apply rrel_ok' in X as (tb & EB & HB).
  pose proof (rel_switching_values _ _ _ _ _ exactly_related Z_eq_like ball_eq_like (@concat _) (@concat _)
    rayon_exists rayon_exists _ _ [Some 4; Some (-9)]%Z (map point [lit 4; lit (-9)]) HB) as Y.
  lapply Y; [clear Y; intros Y|].
  2: { cbn [map]. rewrite (point_lit 4), (point_lit (-9)) by (lia || (vm_compute; reflexivity)). repeat constructor. }
  set (dz := switching_values Zops _ _ _) in Y. vm_compute in dz. subst dz. apply rrel_ok' in Y as (db & ED & HD).
  exists tb, db. split; [exact EB|]. split; [exact ED|].
  repeat match goal with H : Forall2 exactly _ _ |- _ => inversion H; clear H; subst end.
  cbn in *. subst. split; [|reflexivity]. clear.
  repeat (apply Forall_cons; [unfold decided, Rabs; left; destruct (Rcase_abs _); lra|]). apply Forall_nil.
Qed.
Lemma ab_full :
  libm_accurate libm_real /\ wf_tape (ab_tape S754_nan (lit 7)) /\ abs_once (ab_tape S754_nan (lit 7)) /\
  NoDup (t_deps (ab_tape S754_nan (lit 7))) /\
  exists t64 tb tr db, replays libm_real (ab_tape S754_nan (lit 7)) [lit 2; lit 3] t64 tb tr /\
    switching_values Bops (@concat _) tb (map point [lit 4; lit (-9)]) = Ok db /\ Forall decided db /\
    db = [Some (-7, 0); Some (6, 0); Some (-12, 0)].
Proof.
  split; [exact libm_real_accurate|]. split; [exact ab_wf|]. split.
  { unfold abs_once. cbn. repeat constructor; cbn; intuition discriminate. }
  split; [repeat constructor; intros []|].
  destruct ab_example as (tb & db & EB & H).
  destruct (replay_close libm_real libm_real_accurate _ [lit 2; lit 3] ab_wf eq_refl) as (t64 & tb' & tr & HP & _).
  pose proof HP as (_ & EB' & _). assert (tb' = tb) as -> by congruence. exists t64, tb, tr, db. auto.
Qed.
