(** The generalized Jacobian in closed form. *)
From Coq Require Import Reals Lra List Arith ZArith NArith Bool Lia.
From Verif Require Import Base Float Operation Tape AContext Methods Function Spec TapeFacts
  SweepFacts RealInst Param Instances FunctionFacts ReplayFacts Replay2 ApiFacts3 DerivSpec DerivFacts LinearFacts DerivFacts2
  Matrix MatrixFacts Jacobian JacobianFacts AbsNormal AbsNormalFacts AnfSpec RVec AnfFacts AnfFacts2
  ChainFacts Checkpoint CheckSpec CheckMain GenJac GenSpec GenFacts GenMain.
Import ListNotations.
Local Open Scope R_scope.

(** Sum of matrices, and multiplication by a diagonal matrix from the right. *)
Definition madd (A B : matrix R) : matrix R :=
  m_tab (m_rows A) (m_cols A) (fun i j => ent Rops A i j + ent Rops B i j).
Definition mdiag (A : matrix R) (sigma : list R) : matrix R :=
  m_tab (m_rows A) (m_cols A) (fun i j => ent Rops A i j * nth j sigma 0).

(** The affine map [next] stands for: matrix and vector. *)
Definition next_hom (m : nat) (next : option (gjac R)) : matrix R :=
  match next with Some g => g_hom g | None => m_id Rops m end.
Definition next_inh (m : nat) (next : option (gjac R)) : list R :=
  match next with Some g => g_inh g | None => repeat 0 m end.

(** With U the solution of U = (U L + G2 Y) Sigma, that is U = G2 Y Sigma (1 - L Sigma)^-1:
    G = G2 J + U Z and gamma = gamma2 + G2 b + U a. *)
Definition gj_formula (N : anf) (m : nat) (next : option (gjac R)) (sigma : list R) (G : gjac R) : Prop :=
  exists U, shape U (next_rows m next) (length sigma) /\
    U = mdiag (madd (mm U (f_lmat N)) (mm (next_hom m next) (f_ymat N))) sigma /\
    g_hom G = madd (mm (next_hom m next) (f_jmat N)) (mm U (f_zmat N)) /\
    g_inh G = vadd (vadd (next_inh m next) (mulv (next_hom m next) (f_b N))) (mulv U (f_a N)).

Lemma m_add2_madd A B r c : shape A r c -> shape B r c -> m_add2 Rops A B = Ok (madd A B).
Proof.
  intros SA SB. destruct (m_add2_ok A B r c SA SB) as (C & -> & SC & HC). f_equal.
  pose proof SA as (_ & RA & CA).
  assert (shape (madd A B) r c) as SM by (unfold madd; rewrite RA, CA; apply shape_tab).
  apply (shape_ext _ _ _ _ SC SM). intros i j Hi Hj. rewrite <- row_ent, HC by auto.
  rewrite nth_vadd by (rewrite (row_len A r c), (row_len B r c); auto).
  unfold madd. rewrite ent_tab by lia. reflexivity.
Qed.

Theorem gj_tape_explicit red (t : tape R) (N : anf) dx bits next :
  rayon red -> wf_tape t -> NoDup (t_deps t) -> (forall args, abs_args t = Ok args -> NoDup args) ->
  anf_of t N -> length dx = num_indeps t -> next_ok (num_deps t) next ->
  exists G dz sigma, generalized_jacobian_tape Rops red t dx bits next = Ok G /\
    switching N dx dz /\ selected bits dz sigma /\
    g_mult G = (zeros dz + next_mult next)%nat /\ gj_formula N (num_deps t) next sigma G.
Proof.
  intros HR W ND NA HN Ldx Hnx.
  pose proof (anf_lower t N W HN) as Low.
  pose proof HN as [(a & z & EN & EZ & Rz & Rl & Rj & Ry & Ea & Eb)].
  destruct (abs_args_ok t W) as (args & EA & LA). specialize (NA args EA).
  destruct (subtapes_ok t a W EN) as (HS & N1 & N2 & N3 & N4 & N5 & N6 & N7 & N8).
  destruct (HS (z_tape a)) as [Wz Az]; [cbn; auto|]. destruct (HS (l_tape a)) as [Wl Al]; [cbn; auto|].
  destruct (HS (j_tape a)) as [Wj Aj]; [cbn; auto|]. destruct (HS (y_tape a)) as [Wy Ay]; [cbn; auto|].
  destruct (sub_tapes t a args EN EA) as (Tz & Tl & Tj & Ty & _).
  assert (NoDup (t_deps (z_tape a)) /\ NoDup (t_deps (l_tape a)) /\
          NoDup (t_deps (j_tape a)) /\ NoDup (t_deps (y_tape a))) as (D1 & D2 & D3 & D4).
  { rewrite Tz, Tl, Tj, Ty. cbn. auto. }
  assert (shape (f_zmat N) (num_abs t) (num_indeps t)) as SZ by (rewrite <- N1, <- N2; apply Rz).
  assert (shape (f_lmat N) (num_abs t) (num_abs t)) as SL by (rewrite <- N3 at 2; rewrite <- N4 at 1; apply Rl).
  assert (shape (f_jmat N) (num_deps t) (num_indeps t)) as SJ by (rewrite <- N5, <- N6; apply Rj).
  assert (shape (f_ymat N) (num_deps t) (num_abs t)) as SY by (rewrite <- N7, <- N8; apply Ry).
  destruct (an_z_ok t a W EN) as (z' & EZ' & Lz). assert (z' = z) as -> by congruence.
  assert (length (f_a N) = num_abs t) as Lfa.
  { rewrite Ea, vsub_len; auto. rewrite (mulv_len _ _ _ _ SL). auto. }
  assert (length (f_b N) = num_deps t) as Lfb.
  { rewrite Eb, map_length, (mulv_len _ _ _ _ SY). auto. }
  unfold generalized_jacobian_tape. rewrite Ldx, Nat.eqb_refl. cbn [assert bind].
  rewrite EN. cbn [bind]. rewrite EZ. cbn [bind]. change (v_abs Rops z) with (vabs z).
  rewrite (mul_right_vec_ok red _ _ _ HR Rl) by (rewrite vabs_len; congruence). cbn [bind].
  rewrite v_sub_ok by (rewrite (mulv_len _ _ _ _ SL); auto). cbn [bind]. rewrite <- Ea.
  rewrite (mul_right_vec_ok red _ _ _ HR Ry) by (rewrite vabs_len; congruence). cbn [bind].
  change (v_neg Rops (mulv (f_ymat N) (vabs z))) with (map Ropp (mulv (f_ymat N) (vabs z))). rewrite <- Eb.
  rewrite (mul_right_vec_ok red _ _ _ HR Rz) by congruence. cbn [bind].
  rewrite v_add_ok by (rewrite (mulv_len _ _ _ _ SZ); auto). cbn [bind].
  set (c := vadd (f_a N) (mulv (f_zmat N) dx)).
  assert (length c = num_abs t) as Lc by (unfold c; rewrite vadd_len; rewrite ?(mulv_len _ _ _ _ SZ); auto).
  destruct (dz_loop_ok red _ _ c (num_abs t) HR Rl SL N3 Low Lc) as (dz & -> & Ldz & Edz). cbn [bind].
  destruct (signs_loop Rops bits 0 0 dz) as [sg mu] eqn:ES.
  apply signs_ok in ES as (HSel & ->). pose proof (proj1 HSel) as Lsg. rewrite Ldz in Lsg.
  unfold gj_formula.
  set (G2 := next_hom (num_deps t) next). set (gamma2 := next_inh (num_deps t) next).
  assert (shape G2 (next_rows (num_deps t) next) (num_deps t) /\ length gamma2 = next_rows (num_deps t) next) as [SG Lg].
  { destruct next as [g|]; cbn in G2, gamma2, Hnx |- *; subst G2 gamma2; auto.
    split; [apply shape_id|apply repeat_length]. }
  set (k := next_rows (num_deps t) next) in *.
  assert (match next with
    | Some g => (g_hom g, g_inh g, (zeros dz + g_mult g)%nat)
    | None => (m_id Rops (num_deps t), repeat (f_zero Rops) (num_deps t), zeros dz)
    end = (G2, gamma2, (zeros dz + next_mult next)%nat)) as ->.
  { destruct next as [g|]; cbn in G2, gamma2 |- *; subst G2 gamma2; auto; rewrite Nat.add_0_r; auto. }
  rewrite (mul_left_spec red (y_tape a) (f_ymat N) G2) by (auto; try apply SG; destruct SG as [_ [_ ->]]; auto).
  cbn [bind].
  assert (forall M c', shape M (num_deps t) c' -> shape (mm G2 M) k c') as SMM.
  { intros M c' [_ [_ <-]]. destruct SG as [_ [<- _]]. apply shape_mm. }
  set (base := scale_cols Rops (mm G2 (f_ymat N)) sg).
  assert (shape base k (num_abs t)) as SB by (apply shape_scale; auto).
  destruct (u_loop_ok (f_lmat N) (num_abs t) k SL sg Lsg base SB Low red (l_tape a)) as (U & -> & SU & HU); auto.
  cbn [bind].
  rewrite (mul_left_spec red (j_tape a) (f_jmat N) G2) by (auto; try apply SG; destruct SG as [_ [_ ->]]; auto).
  cbn [bind].
  rewrite (mul_left_spec red (z_tape a) (f_zmat N) U) by (auto; try apply SU; destruct SU as [_ [_ ->]]; auto).
  cbn [bind].
  assert (shape (mm U (f_zmat N)) k (num_indeps t)) as SUZ.
  { pose proof SZ as [_ [_ <-]]. pose proof SU as [_ [<- _]]. apply shape_mm. }
  rewrite (m_add2_madd _ _ k (num_indeps t) (SMM _ _ SJ) SUZ). cbn [bind].
  rewrite (m_mulv_ok G2 k (num_deps t)) by auto. cbn [bind].
  rewrite v_add_ok by (rewrite (mulv_len _ _ _ _ SG); auto). cbn [bind].
  rewrite (m_mulv_ok U k (num_abs t)) by auto. cbn [bind].
  rewrite v_add_ok.
  2: { rewrite vadd_len; rewrite ?(mulv_len _ _ _ _ SG), ?(mulv_len _ _ _ _ SU); auto. }
  cbn [bind]. eexists _, dz, sg. split; [reflexivity|]. cbn [g_hom g_inh g_mult].
  split; [split; [congruence|exact Edz]|]. split; [exact HSel|]. split; [reflexivity|].
  exists U. rewrite Lsg. split; [exact SU|]. split; [|split; reflexivity].
  pose proof SU as (_ & RU & CU). pose proof SL as (_ & RL & CL). pose proof SY as (_ & RY & CY).
  pose proof SG as (_ & RG & CG).
  apply (shape_ext U _ k (num_abs t) SU).
  { unfold mdiag, madd, mm. cbn [m_tab m_rows m_cols]. rewrite RU, CL. apply shape_tab. }
  intros i j Hi Hj. rewrite <- row_ent at 1. rewrite HU by auto. unfold u_row, base.
  rewrite row_scale, !row_mm by lia.
  rewrite nth_vadd by (rewrite !vmul_len; rewrite ?vmulm_len; try lia).
  rewrite !nth_vmul by (rewrite ?vmulm_len; lia).
  rewrite !nth_vmulm by lia. unfold mdiag, madd, mm. cbn [m_tab m_rows m_cols].
  rewrite RU, CL. fold (m_tab (F := R)).
  rewrite !ent_tab by lia. ring.
Qed.

(** The equation determines U. *)
Lemma u_unique L Y s k sigma U V : shape L s s -> strictly_lower L -> shape U k s -> shape V k s ->
  m_rows Y = k -> m_cols Y = s ->
  U = mdiag (madd (mm U L) Y) sigma -> V = mdiag (madd (mm V L) Y) sigma -> U = V.
Proof.
  intros SL Low SU SV RY CY EU EV. pose proof SL as (_ & RL & CL).
  assert (forall W i j, shape W k s -> W = mdiag (madd (mm W L) Y) sigma -> (i < k)%nat -> (j < s)%nat ->
    ent Rops W i j = (dot (row W i) (col L j) + ent Rops Y i j) * nth j sigma 0) as HW.
  { intros W i j SW E Hi Hj. rewrite E at 1. pose proof SW as (_ & RW & CW). unfold mdiag, madd, mm.
    cbn [m_tab m_rows m_cols]. rewrite RW, CL. rewrite !ent_tab by lia. reflexivity. }
  assert (forall n i j, (i < k)%nat -> (j < s)%nat -> (s <= j + n)%nat -> ent Rops U i j = ent Rops V i j) as H.
  { induction n as [|n IH]; intros i j Hi Hj Hn; [lia|].
    rewrite (HW U i j), (HW V i j) by auto. f_equal. f_equal.
    pose proof (upper_suffix L s (row U i) (row V i) n j SL Low) as P.
    rewrite !nth_vmulm in P by lia. apply P; try (eapply row_len; eauto); auto; try lia.
    intros l Hl. destruct (Nat.lt_ge_cases l s) as [Hls|Hls].
    - rewrite !row_ent. apply IH; auto; lia.
    - rewrite !nth_overflow; auto; [rewrite (row_len V k s)|rewrite (row_len U k s)]; auto. }
  apply (shape_ext U V k s SU SV). intros i j Hi Hj. apply (H s); auto. lia.
Qed.

Theorem gj_formula_unique (t : tape R) (N : anf) next sigma G1 G2 :
  wf_tape t -> anf_of t N -> next_ok (num_deps t) next -> length sigma = num_abs t ->
  gj_formula N (num_deps t) next sigma G1 -> gj_formula N (num_deps t) next sigma G2 ->
  g_hom G1 = g_hom G2 /\ g_inh G1 = g_inh G2.
Proof.
  intros W HN Hnx Ls (U & SU & EU & H1 & I1) (V & SV & EV & H2 & I2).
  pose proof (anf_lower t N W HN) as Low.
  pose proof HN as [(a & z & EN & EZ & Rz & Rl & Rj & Ry & Ea & Eb)].
  destruct (subtapes_ok t a W EN) as (HS & N1 & N2 & N3 & N4 & N5 & N6 & N7 & N8).
  assert (shape (f_lmat N) (num_abs t) (num_abs t)) as SL by (rewrite <- N3 at 2; rewrite <- N4 at 1; apply Rl).
  assert (shape (f_ymat N) (num_deps t) (num_abs t)) as SY by (rewrite <- N7, <- N8; apply Ry).
  assert (m_rows (next_hom (num_deps t) next) = next_rows (num_deps t) next) as RG.
  { destruct next as [g|]; cbn; auto. }
  rewrite Ls in SU, SV.
  assert (U = V) as ->.
  { apply (u_unique (f_lmat N) (mm (next_hom (num_deps t) next) (f_ymat N)) (num_abs t)
      (next_rows (num_deps t) next) sigma); auto.
    cbn. apply SY. }
  split; congruence.
Qed.

Theorem gj_explicit red (f : func R) x dx bits next w t w' N :
  rayon red -> fn_n f = Ok (length x) -> fn_tape Rops f x w = Ok (t, w') -> NoDup (t_deps t) -> abs_once t ->
  anf_of t N -> length dx = length x -> next_ok (num_deps t) next ->
  exists G dz sigma, generalized_jacobian Rops red f x dx bits next w = Ok (G, w') /\
    switching N dx dz /\ selected bits dz sigma /\ g_mult G = (zeros dz + next_mult next)%nat /\
    gj_formula N (num_deps t) next sigma G.
Proof.
  intros HR En HT ND NA HN Ldx Hnx.
  destruct (fn_tape_wf Rops _ _ _ _ _ HT) as ([W _] & _ & Nx).
  destruct (gj_tape_explicit red t N dx bits next HR W ND) as (G & dz & sg & E & H); auto.
  { intros args EA. eapply abs_args_nodup; eauto. }
  { congruence. }
  exists G, dz, sg. split; [|exact H].
  unfold generalized_jacobian, mbind, mlift. rewrite En, Nat.eqb_refl. cbn [assert]. rewrite HT, E. reflexivity.
Qed.
