(** The generalized Jacobian is the derivative with prescribed slopes. *)
From Coq Require Import Reals Lra List Arith ZArith NArith Bool Lia.
From Verif Require Import Base Float Operation Tape AContext Methods Function Spec TapeFacts AContextFacts
  SweepFacts RealInst Param Instances FunctionFacts RecordFacts ReplayFacts Replay2 ApiFacts3 DerivSpec DerivFacts LinearFacts DerivFacts2
  Matrix MatrixFacts Jacobian JacobianFacts AbsNormal AbsNormalFacts AnfSpec RVec AnfFacts AnfFacts2
  ChainFacts Checkpoint CheckSpec CheckMain GenJac GenSpec GenFacts GenMain GenExplicit StraightSpec StraightFacts.
Import ListNotations.
Local Open Scope R_scope.

(** As [gj_formula], when an output may occur twice: of several entries of [next] for the same output
    the homogeneous part uses the last only. *)
Definition gj_seeded (N : anf) (ds : list nat) (m : nat) (next : option (gjac R)) (sigma : list R) (G : gjac R) : Prop :=
  exists U, shape U (next_rows m next) (length sigma) /\
    U = mdiag (madd (mm U (f_lmat N)) (mm (seed_rows ds (next_hom m next)) (f_ymat N))) sigma /\
    g_hom G = madd (mm (seed_rows ds (next_hom m next)) (f_jmat N)) (mm U (f_zmat N)) /\
    g_inh G = vadd (vadd (next_inh m next) (mulv (next_hom m next) (f_b N))) (mulv U (f_a N)).

Theorem gj_tape_seeded red (t : tape R) (N : anf) dx bits next :
  rayon red -> wf_tape t -> (forall args, abs_args t = Ok args -> NoDup args) ->
  anf_of t N -> length dx = num_indeps t -> next_ok (num_deps t) next ->
  exists G dz sigma, generalized_jacobian_tape Rops red t dx bits next = Ok G /\
    switching N dx dz /\ selected bits dz sigma /\
    g_mult G = (zeros dz + next_mult next)%nat /\ gj_seeded N (t_deps t) (num_deps t) next sigma G.
Proof.
  intros HR W NA HN Ldx Hnx.
  pose proof (anf_lower t N W HN) as Low.
  pose proof HN as [(a & z & EN & EZ & Rz & Rl & Rj & Ry & Ea & Eb)].
  destruct (abs_args_ok t W) as (args & EA & LA). specialize (NA args EA).
  destruct (subtapes_ok t a W EN) as (HS & N1 & N2 & N3 & N4 & N5 & N6 & N7 & N8).
  destruct (HS (z_tape a)) as [Wz Az]; [cbn; auto|]. destruct (HS (l_tape a)) as [Wl Al]; [cbn; auto|].
  destruct (HS (j_tape a)) as [Wj Aj]; [cbn; auto|]. destruct (HS (y_tape a)) as [Wy Ay]; [cbn; auto|].
  destruct (sub_tapes t a args EN EA) as (Tz & Tl & Tj & Ty & _).
  assert (NoDup (t_deps (z_tape a)) /\ NoDup (t_deps (l_tape a)) /\
          t_deps (j_tape a) = t_deps t /\ t_deps (y_tape a) = t_deps t) as (D1 & D2 & D3 & D4).
  { rewrite Tz, Tl, Tj, Ty. cbn. auto. }
  assert (shape (f_zmat N) (num_abs t) (num_indeps t)) as SZ by (rewrite <- N1, <- N2; apply Rz).
  assert (shape (f_lmat N) (num_abs t) (num_abs t)) as SL by (rewrite <- N3 at 2; rewrite <- N4 at 1; apply Rl).
  assert (shape (f_jmat N) (num_deps t) (num_indeps t)) as SJ by (rewrite <- N5, <- N6; apply Rj).
  assert (shape (f_ymat N) (num_deps t) (num_abs t)) as SY by (rewrite <- N7, <- N8; apply Ry).
  destruct (an_z_ok t a W EN) as (z' & EZ' & Lz). assert (z' = z) as -> by congruence.
  assert (length (f_a N) = num_abs t) as Lfa.
  { rewrite Ea, vsub_len; auto. rewrite (mulv_len _ _ _ _ SL). auto. }
  assert (length (f_b N) = num_deps t) as Lfb.
  { rewrite Eb, map_length, (mulv_len _ _ _ _ SY). auto. }
  unfold generalized_jacobian_tape. rewrite Ldx, Nat.eqb_refl. cbn [assert bind].
  rewrite EN. cbn [bind]. rewrite EZ. cbn [bind]. change (v_abs Rops z) with (vabs z).
  rewrite (mul_right_vec_ok red _ _ _ HR Rl) by (rewrite vabs_len; congruence). cbn [bind].
  rewrite v_sub_ok by (rewrite (mulv_len _ _ _ _ SL); auto). cbn [bind]. rewrite <- Ea.
  rewrite (mul_right_vec_ok red _ _ _ HR Ry) by (rewrite vabs_len; congruence). cbn [bind].
  change (v_neg Rops (mulv (f_ymat N) (vabs z))) with (map Ropp (mulv (f_ymat N) (vabs z))). rewrite <- Eb.
  rewrite (mul_right_vec_ok red _ _ _ HR Rz) by congruence. cbn [bind].
  rewrite v_add_ok by (rewrite (mulv_len _ _ _ _ SZ); auto). cbn [bind].
  set (c := vadd (f_a N) (mulv (f_zmat N) dx)).
  assert (length c = num_abs t) as Lc by (unfold c; rewrite vadd_len; rewrite ?(mulv_len _ _ _ _ SZ); auto).
  destruct (dz_loop_ok red _ _ c (num_abs t) HR Rl SL N3 Low Lc) as (dz & -> & Ldz & Edz). cbn [bind].
  destruct (signs_loop Rops bits 0 0 dz) as [sg mu] eqn:ES.
  apply signs_ok in ES as (HSel & ->). pose proof (proj1 HSel) as Lsg. rewrite Ldz in Lsg.
  unfold gj_seeded.
  set (G2 := next_hom (num_deps t) next). set (gamma2 := next_inh (num_deps t) next).
  assert (shape G2 (next_rows (num_deps t) next) (num_deps t) /\ length gamma2 = next_rows (num_deps t) next) as [SG Lg].
  { destruct next as [g|]; cbn in G2, gamma2, Hnx |- *; subst G2 gamma2; auto.
    split; [apply shape_id|apply repeat_length]. }
  set (H2 := seed_rows (t_deps t) G2).
  set (k := next_rows (num_deps t) next) in *.
  assert (match next with
    | Some g => (g_hom g, g_inh g, (zeros dz + g_mult g)%nat)
    | None => (m_id Rops (num_deps t), repeat (f_zero Rops) (num_deps t), zeros dz)
    end = (G2, gamma2, (zeros dz + next_mult next)%nat)) as ->.
  { destruct next as [g|]; cbn in G2, gamma2 |- *; subst G2 gamma2; auto; rewrite Nat.add_0_r; auto. }
  rewrite (mul_left_general red (y_tape a) (f_ymat N) G2) by (auto; try apply SG; destruct SG as [_ [_ ->]]; auto).
  rewrite D4. fold H2.
  cbn [bind].
  assert (forall M c', shape M (num_deps t) c' -> shape (mm H2 M) k c') as SMM.
  { intros M c' [_ [_ <-]]. destruct SG as [_ [<- _]]. apply (shape_mm H2). }
  set (base := scale_cols Rops (mm H2 (f_ymat N)) sg).
  assert (shape base k (num_abs t)) as SB by (apply shape_scale; auto).
  destruct (u_loop_ok (f_lmat N) (num_abs t) k SL sg Lsg base SB Low red (l_tape a)) as (U & -> & SU & HU); auto.
  cbn [bind].
  rewrite (mul_left_general red (j_tape a) (f_jmat N) G2) by (auto; try apply SG; destruct SG as [_ [_ ->]]; auto).
  rewrite D3. fold H2.
  cbn [bind].
  rewrite (mul_left_spec red (z_tape a) (f_zmat N) U) by (auto; try apply SU; destruct SU as [_ [_ ->]]; auto).
  cbn [bind].
  assert (shape (mm U (f_zmat N)) k (num_indeps t)) as SUZ.
  { pose proof SZ as [_ [_ <-]]. pose proof SU as [_ [<- _]]. apply shape_mm. }
  rewrite (m_add2_madd _ _ k (num_indeps t) (SMM _ _ SJ) SUZ). cbn [bind].
  rewrite (m_mulv_ok G2 k (num_deps t)) by auto. cbn [bind].
  rewrite v_add_ok by (rewrite (mulv_len _ _ _ _ SG); auto). cbn [bind].
  rewrite (m_mulv_ok U k (num_abs t)) by auto. cbn [bind].
  rewrite v_add_ok.
  2: { rewrite vadd_len; rewrite ?(mulv_len _ _ _ _ SG), ?(mulv_len _ _ _ _ SU); auto. }
  cbn [bind]. eexists _, dz, sg. split; [reflexivity|]. cbn [g_hom g_inh g_mult].
  split; [split; [congruence|exact Edz]|]. split; [exact HSel|]. split; [reflexivity|].
  exists U. rewrite Lsg. split; [exact SU|]. split; [|split; reflexivity].
  pose proof SU as (_ & RU & CU). pose proof SL as (_ & RL & CL). pose proof SY as (_ & RY & CY).
  pose proof SG as (_ & RG & CG).
  assert (m_rows H2 = k) as RH by exact RG.
  apply (shape_ext U _ k (num_abs t) SU).
  { unfold mdiag, madd, mm. cbn [m_tab m_rows m_cols]. rewrite RU, CL. apply shape_tab. }
  intros i j Hi Hj. rewrite <- row_ent at 1. rewrite HU by auto. unfold u_row, base.
  rewrite row_scale, !row_mm by lia.
  rewrite nth_vadd by (rewrite !vmul_len; rewrite ?vmulm_len; try lia).
  rewrite !nth_vmul by (rewrite ?vmulm_len; lia).
  rewrite !nth_vmulm by lia. unfold mdiag, madd, mm. cbn [m_tab m_rows m_cols].
  rewrite RU, CL. fold (m_tab (F := R)).
  rewrite !ent_tab by lia. ring.
Qed.


Lemma nth_error_seq0 n k : (k < n)%nat -> nth_error (seq 0 n) k = Some k.
Proof.
  intros H. rewrite (nth_error_nth' _ 0%nat) by (rewrite seq_length; auto). rewrite seq_nth; auto.
Qed.

(** [D] solves the equations of the abs-normal tape. *)
Lemma straight_equations (t : tape R) a args sg v D : wf_tape t -> recorded_tape t -> length v = num_indeps t ->
  an_new t = Ok a -> abs_args t = Ok args -> straight_at sg v (t_indeps t) (t_ops t) (t_vals t) D ->
  let z := map (at0 (t_vals t)) args in
  let dz := map (at0 D) args in
  let s := map (fun k => sg k (nth k z 0) * nth k dz 0) (seq 0 (num_abs t)) in
  exists pz pl pj py,
    tape_forward Rops (z_tape a) v = Ok pz /\ tape_forward Rops (l_tape a) s = Ok pl /\
    tape_forward Rops (j_tape a) v = Ok pj /\ tape_forward Rops (y_tape a) s = Ok py /\
    dz = vadd pz pl /\ map (at0 D) (t_deps t) = vadd pj py.
Proof.
  intros W HRec L EN EA [T1 T2 T3 T4] z dz s.
  destruct (sub_tapes t a args EN EA) as (-> & -> & -> & -> & _).
  assert (length args = num_abs t) as LA by (apply mapM_ok_length in EA; auto).
  assert (length s = num_abs t) as Ls by (unfold s; rewrite map_length, seq_length; auto).
  assert (forall outs, tangents_at Rops (mk_sub t (t_indeps t ++ abs_ids t) outs) (v ++ s) D) as TA.
  { intros outs. constructor; cbn; auto.
    - intros k i Hk. destruct (Nat.lt_ge_cases k (length (t_indeps t))) as [H|H].
      + rewrite nth_error_app1 in Hk by auto. destruct (T2 k i Hk) as (b & Ha & Hd). exists b.
        split; auto. rewrite nth_error_app1; [auto|]. unfold num_indeps in L. lia.
      + rewrite nth_error_app2 in Hk by auto. unfold num_indeps in L.
        rewrite nth_error_app2 by lia. rewrite L. set (q := (k - length (t_indeps t))%nat) in *.
        destruct (nth_error (filter is_abs (t_ops t)) q) as [o|] eqn:Eo.
        2: { apply nth_error_None in Eo. assert (q < length (abs_ids t))%nat by (apply nth_error_Some; congruence).
             rewrite abs_ids_length in *. unfold num_abs in *. lia. }
        assert (q < num_abs t)%nat as Hq by (apply nth_error_Some; congruence).
        destruct (abs_nth t W args q o EA Eo) as (Ho & Ha & Hi & j & Hj & Ej & Hlt).
        rewrite Hi in Hk. injection Hk as <-.
        destruct (T4 q o Eo) as (j' & b & d & A1 & A2 & A3 & A4). assert (j' = j) by congruence. subst j'.
        exists (sg q b * d). split; auto.
        unfold s. rewrite nth_error_map, nth_error_seq0 by auto. cbn. unfold z, dz.
        rewrite (nth_error_nth (map (at0 (t_vals t)) args) q 0 (x := b)).
        2: { rewrite nth_error_map, Hj. cbn. f_equal. apply nth_at0; auto. }
        rewrite (nth_error_nth (map (at0 D) args) q 0 (x := d)); auto.
        rewrite nth_error_map, Hj. cbn. f_equal. apply nth_at0; auto.
    - intros o Ho. apply in_map_iff in Ho as (o' & <- & Ho'). unfold deabs.
      destruct (is_abs o') eqn:E; [exact I|]. apply T3; auto. intros E'. apply is_abs_iff in E'. congruence.
    - intros k Hk H1 H2. exfalso. destruct (rt_cover _ HRec k Hk) as [G|G].
      + apply H1, in_or_app; auto.
      + apply AbsNormalFacts.in_def_ids in G as (o & Ho & NN & Ek). destruct (is_abs o) eqn:EA'.
        * apply H1, in_or_app. right. subst k. unfold abs_ids. apply in_map. apply filter_In. auto.
        * apply H2. apply AbsNormalFacts.in_def_ids. exists o. split; auto. apply in_map_iff. exists o.
          split; auto. unfold deabs. rewrite EA'. auto. }
  assert (forall d, In d args -> (d < length (t_vals t))%nat) as HR1
    by (intros d Hd; eapply abs_args_range; eauto).
  destruct (forward_split t W args HR1 v s L Ls) as (pz & pl & F1 & F2 & F3).
  destruct (forward_split t W (t_deps t) (wf_dep_range _ W) v s L Ls) as (pj & py & F4 & F5 & F6).
  exists pz, pl, pj, py. do 4 (split; [auto|]).
  assert (forall outs, (forall d, In d outs -> (d < length (t_vals t))%nat) -> forall y,
    tape_forward Rops (mk_sub t (t_indeps t ++ abs_ids t) outs) (v ++ s) = Ok y -> gather outs D = Ok y) as HG.
  { intros outs HO y Hy.
    pose proof (sub_of_wf t W _ (sub_full t W outs HO)) as Wf.
    destruct (forward_tangents Rops _ (v ++ s) Wf) as (D' & y' & T' & F' & G').
    { unfold num_indeps in *; cbn; rewrite !app_length, abs_ids_length. lia. }
    assert (D' = D) as -> by (eapply tangents_at_unique; [apply Wf|apply T'|apply TA]).
    change (gather outs D = Ok y') in G'. rewrite F' in Hy. congruence. }
  split.
  - specialize (HG args HR1 _ F3). apply gather_map in HG. unfold dz. congruence.
  - specialize (HG (t_deps t) (wf_dep_range _ W) _ F6). apply gather_map in HG. congruence.
Qed.

Lemma row_madd A B r c i : shape A r c -> shape B r c -> (i < r)%nat -> row (madd A B) i = vadd (row A i) (row B i).
Proof.
  intros SA SB Hi. pose proof SA as (_ & RA & CA).
  assert (shape (madd A B) r c) as SM by (unfold madd; rewrite RA, CA; apply shape_tab).
  pose proof (row_len A r c i SA Hi) as LA. pose proof (row_len B r c i SB Hi) as LB.
  apply nth_ext0; [rewrite (row_len _ r c), vadd_len by (auto; congruence); auto|].
  intros j Hj. rewrite (row_len _ r c) in Hj by auto. rewrite nth_vadd by congruence. rewrite !row_ent.
  unfold madd. rewrite ent_tab by lia. reflexivity.
Qed.
Lemma row_mdiag A sigma r c i : shape A r c -> length sigma = c -> (i < r)%nat ->
  row (mdiag A sigma) i = vmul (row A i) sigma.
Proof.
  intros SA Ls Hi. pose proof SA as (_ & RA & CA).
  assert (shape (mdiag A sigma) r c) as SM by (unfold mdiag; rewrite RA, CA; apply shape_tab).
  pose proof (row_len A r c i SA Hi) as LA.
  apply nth_ext0; [rewrite (row_len _ r c), vmul_len by (auto; congruence); auto|].
  intros j Hj. rewrite (row_len _ r c) in Hj by auto. rewrite nth_vmul by congruence. rewrite !row_ent.
  unfold mdiag. rewrite ent_tab by lia. reflexivity.
Qed.
Lemma mulv_madd A B r c x : shape A r c -> shape B r c -> length x = c ->
  mulv (madd A B) x = vadd (mulv A x) (mulv B x).
Proof.
  intros SA SB Lx. pose proof SA as (_ & RA & CA).
  assert (shape (madd A B) r c) as SM by (unfold madd; rewrite RA, CA; apply shape_tab).
  apply nth_ext0.
  - rewrite vadd_len; rewrite !(mulv_len _ r c); auto.
  - intros i Hi. rewrite (mulv_len _ r c) in Hi by auto.
    rewrite nth_vadd by (rewrite !(mulv_len _ r c); auto). rewrite !nth_mulv.
    rewrite (row_madd A B r c) by auto. apply dot_vadd_l.
    rewrite (row_len A r c), (row_len B r c); auto.
Qed.

Lemma seed_rows_shape ds A r c : shape A r c -> length ds = c -> shape (seed_rows ds A) r c.
Proof.
  intros [[L F] [R C]] Ld. split; [split|split]; cbn; auto.
  - rewrite map_length. auto.
  - apply Forall_forall. intros y Hy. apply in_map_iff in Hy as (x & <- & Hx).
    rewrite Forall_forall in F. rewrite last_seeds_length; [congruence|]. rewrite F; auto. congruence.
Qed.

(** The algebra: solving from the left and from the right gives the same. *)
Lemma solve_both U H J Y Z L k m n q sigma v s dz :
  shape U k q -> shape H k m -> shape J m n -> shape Y m q -> shape Z q n -> shape L q q ->
  length sigma = q -> length v = n -> length dz = q ->
  U = mdiag (madd (mm U L) (mm H Y)) sigma -> s = vmul sigma dz ->
  dz = vadd (mulv Z v) (mulv L s) ->
  mulv (madd (mm H J) (mm U Z)) v = mulv H (vadd (mulv J v) (mulv Y s)).
Proof.
  intros SU SH SJ SY SZ SL Lg Lv Ld EU Es Ed.
  assert (length s = q) as Ls by (subst s; rewrite vmul_len; congruence).
  assert (shape (mm H J) k n) as S1.
  { pose proof (shape_mm H J) as Q. destruct SH as (_ & RH & _). destruct SJ as (_ & _ & CJ). rewrite RH, CJ in Q. exact Q. }
  assert (shape (mm U Z) k n) as S2.
  { pose proof (shape_mm U Z) as Q. destruct SU as (_ & RU & _). destruct SZ as (_ & _ & CZ). rewrite RU, CZ in Q. exact Q. }
  assert (shape (mm U L) k q) as S3.
  { pose proof (shape_mm U L) as Q. destruct SU as (_ & RU & _). destruct SL as (_ & _ & CL). rewrite RU, CL in Q. exact Q. }
  assert (shape (mm H Y) k q) as S4.
  { pose proof (shape_mm H Y) as Q. destruct SH as (_ & RH & _). destruct SY as (_ & _ & CY). rewrite RH, CY in Q. exact Q. }
  rewrite (mulv_madd _ _ k n) by auto.
  rewrite (mulv_mm H J v k m n), (mulv_mm U Z v k q n) by auto.
  rewrite mulv_vadd by (rewrite (mulv_len J m n), (mulv_len Y m q); auto).
  f_equal. apply nth_ext0; [rewrite (mulv_len U k q), (mulv_len H k m); auto|].
  intros i Hi. rewrite (mulv_len U k q) in Hi by auto. rewrite !nth_mulv.
  assert (length (mulv Z v) = q) as LZ by (eapply mulv_len; eauto).
  assert (length (mulv L s) = q) as LL by (eapply mulv_len; eauto).
  assert (dot (row U i) dz = dot (row U i) (mulv Z v) + dot (row U i) (mulv L s)) as E1.
  { rewrite Ed at 1. apply dot_vadd_r. congruence. }
  assert (dot (row U i) dz = dot (row U i) (mulv L s) + dot (row H i) (mulv Y s)) as E2.
  { assert (row U i = vmul (row (madd (mm U L) (mm H Y)) i) sigma) as ER.
    { rewrite EU at 1. apply (row_mdiag _ _ k q); auto.
      destruct S3 as (_ & R3 & C3). unfold madd. rewrite R3, C3. apply shape_tab. }
    rewrite ER at 1. rewrite dot_vmul_l, <- Es. rewrite (row_madd _ _ k q) by auto.
    rewrite dot_vadd_l by (rewrite (row_len (mm U L) k q), (row_len (mm H Y) k q); auto).
    rewrite !row_mm by (destruct SU as (_ & RU & _), SH as (_ & RH & _); lia).
    rewrite (vmulm_mulv _ L s q q), (vmulm_mulv _ Y s m q); auto; eapply row_len; eauto. }
  lra.
Qed.

Section Straight.
Context (red : list (list (nat * list R)) -> list (nat * list R)) (HR : rayon red).
Context (f : func R) (x : list R) (w : world R) (t : tape R) (w' : world R).
Context (HT : fn_tape Rops f x w = Ok (t, w')) (NA : abs_once t).

Theorem gj_straight N dx bits next : anf_of t N -> length dx = length x -> next_ok (num_deps t) next ->
  exists G dz sigma, generalized_jacobian_tape Rops red t dx bits next = Ok G /\
    switching N dx dz /\ selected bits dz sigma /\ g_mult G = (zeros dz + next_mult next)%nat /\
    forall sg, (forall args k i, abs_args t = Ok args -> nth_error args k = Some i ->
       sg k (at0 (t_vals t) i) = nth k sigma 0) ->
    forall v, length v = length x -> exists d, straight_derivative sg f x v = Ok d /\ length d = num_deps t /\
      mulv (g_hom G) v = mulv (seed_rows (t_deps t) (next_hom (num_deps t) next)) d.
Proof.
  intros HN Ldx Hnx.
  destruct (fn_tape_wf Rops _ _ _ _ _ HT) as (HRec & _ & Nx). pose proof HRec as [W _].
  destruct (gj_tape_seeded red t N dx bits next HR W) as (G & dz & sigma & E & HSw & HSel & Hm & U & SU & EU & EG & _); auto.
  { intros args EA. eapply abs_args_nodup; eauto. }
  { congruence. }
  exists G, dz, sigma. do 4 (split; [auto|]). intros sg Hsg v Lv.
  destruct (straight_recorded sg f x v w t w' HT Lv) as (dy & D & ED & HD & GD).
  exists dy. split; [auto|]. split; [apply gather_length in GD; exact GD|].
  pose proof HN as [(a & z & EN & EZ & Rz & Rl & Rj & Ry & Ea & Eb)].
  destruct (abs_args_ok t W) as (args & EA & LA).
  destruct (straight_equations t a args sg v D W HRec) as (pz & pl & pj & py & F1 & F2 & F3 & F4 & Q1 & Q2); auto; [congruence|].
  destruct (subtapes_ok t a W EN) as (HS & N1 & N2 & N3 & N4 & N5 & N6 & N7 & N8).
  assert (shape (f_zmat N) (num_abs t) (num_indeps t)) as SZ by (rewrite <- N1, <- N2; apply Rz).
  assert (shape (f_lmat N) (num_abs t) (num_abs t)) as SL by (rewrite <- N3 at 2; rewrite <- N4 at 1; apply Rl).
  assert (shape (f_jmat N) (num_deps t) (num_indeps t)) as SJ by (rewrite <- N5, <- N6; apply Rj).
  assert (shape (f_ymat N) (num_deps t) (num_abs t)) as SY by (rewrite <- N7, <- N8; apply Ry).
  destruct (an_z_ok t a W EN) as (z' & EZ' & Lz). assert (z' = z) as -> by congruence.
  assert (length sigma = num_abs t) as Lsg.
  { rewrite (proj1 HSel), (proj1 HSw), Ea, vsub_len; auto. rewrite (mulv_len _ _ _ _ SL). auto. }
  rewrite Lsg in SU.
  set (s := map (fun k => sg k (nth k (map (at0 (t_vals t)) args) 0) * nth k (map (at0 D) args) 0) (seq 0 (num_abs t))) in *.
  assert (length s = num_abs t) as Ls by (unfold s; rewrite map_length, seq_length; auto).
  assert (s = vmul sigma (map (at0 D) args)) as Es.
  { apply nth_ext0; [rewrite vmul_len; rewrite ?map_length; congruence|].
    intros k Hk. rewrite Ls in Hk. rewrite nth_vmul by (rewrite map_length; congruence).
    unfold s. rewrite (nth_map_seq (fun k => _)) by auto. f_equal.
    destruct (nth_error args k) as [i|] eqn:Ei.
    2: { apply nth_error_None in Ei. lia. }
    rewrite <- (Hsg args k i EA Ei). f_equal. apply nth_error_nth. rewrite nth_error_map, Ei. reflexivity. }
  rewrite (proj2 Rz) in F1 by congruence. rewrite (proj2 Rl) in F2 by congruence.
  rewrite (proj2 Rj) in F3 by congruence. rewrite (proj2 Ry) in F4 by congruence.
  injection F1 as <-. injection F2 as <-. injection F3 as <-. injection F4 as <-.
  apply gather_map in GD. rewrite GD, Q2, EG.
  assert (shape (next_hom (num_deps t) next) (next_rows (num_deps t) next) (num_deps t)) as SG.
  { destruct next as [g|]; cbn in *; [apply Hnx|apply shape_id]. }
  eapply solve_both with (dz := map (at0 D) args) (sigma := sigma); eauto.
  - apply seed_rows_shape; auto.
  - congruence.
  - rewrite map_length. congruence.
Qed.

(** At the zero direction the switching values are the recorded ones. *)
Lemma switching_zero N dz z : anf_of t N -> switching N (repeat 0 (length x)) dz ->
  forall args, abs_args t = Ok args -> z = map (at0 (t_vals t)) args -> dz = z.
Proof.
  intros HN [L E] args EA ->.
  destruct (fn_tape_wf Rops _ _ _ _ _ HT) as (HRec & _ & Nx). pose proof HRec as [W _].
  pose proof (anf_lower t N W HN) as Low.
  pose proof HN as [(a & z & EN & EZ & Rz & Rl & Rj & Ry & Ea & Eb)].
  destruct (subtapes_ok t a W EN) as (HS & N1 & N2 & N3 & N4 & N5 & N6 & N7 & N8).
  assert (shape (f_zmat N) (num_abs t) (num_indeps t)) as SZ by (rewrite <- N1, <- N2; apply Rz).
  assert (shape (f_lmat N) (num_abs t) (num_abs t)) as SL by (rewrite <- N3 at 2; rewrite <- N4 at 1; apply Rl).
  destruct (an_z_ok t a W EN) as (z' & EZ' & Lz). assert (z' = z) as -> by congruence.
  assert (z = map (at0 (t_vals t)) args) as <-.
  { unfold an_z in EZ. unfold an_new in EN. rewrite EA in EN. cbn in EN. injection EN as <-.
    cbn in EZ. rewrite EA in EZ. cbn in EZ. apply gather_map in EZ. auto. }
  assert (length (f_a N) = num_abs t) as Lfa.
  { rewrite Ea, vsub_len; auto. rewrite (mulv_len _ _ _ _ SL). auto. }
  assert (mulv (f_zmat N) (repeat 0 (length x)) = repeat 0 (num_abs t)) as EZ0.
  { apply nth_ext0; [rewrite (mulv_len _ _ _ _ SZ), repeat_length; auto|].
    intros i Hi. rewrite nth_mulv. rewrite nth_repeat.
    generalize (row (f_zmat N) i) (length x). induction l as [|b l IH]; intros [|n]; cbn; auto. rewrite IH. ring. }
  apply (switching_unique_gen (f_lmat N) (num_abs t) (vadd (f_a N) (repeat 0 (num_abs t)))); auto.
  - rewrite vadd_len; rewrite ?repeat_length; auto.
  - congruence.
  - rewrite E at 1. rewrite EZ0. auto.
  - apply nth_ext0.
    + rewrite !vadd_len; rewrite ?(mulv_len _ _ _ _ SL), ?repeat_length; try congruence.
      rewrite vadd_len; rewrite ?repeat_length; auto.
    + intros i Hi. rewrite !nth_vadd; rewrite ?(mulv_len _ _ _ _ SL), ?repeat_length; try congruence.
      2: { rewrite vadd_len; rewrite ?repeat_length; auto. }
      rewrite nth_repeat, Ea. rewrite nth_vsub by (rewrite (mulv_len _ _ _ _ SL); auto). ring.
Qed.

Theorem gj_straight_zero bits next : (forall k, bit bits k = false) -> next_ok (num_deps t) next ->
  exists G, generalized_jacobian_tape Rops red t (repeat 0 (length x)) bits next = Ok G /\
    forall v, length v = length x -> exists d, straight_derivative (fun _ => right_if_positive) f x v = Ok d /\
      length d = num_deps t /\
      mulv (g_hom G) v = mulv (seed_rows (t_deps t) (next_hom (num_deps t) next)) d.
Proof.
  intros Hb Hnx. destruct (fn_tape_wf Rops _ _ _ _ _ HT) as (HRec & _ & Nx). pose proof HRec as [W _].
  destruct (anf_exists t W) as (N & HN).
  destruct (gj_straight N (repeat 0 (length x)) bits next HN) as (G & dz & sigma & E & HSw & HSel & _ & H); auto.
  { apply repeat_length. }
  exists G. split; [auto|]. apply H. intros args k i EA Ei.
  pose proof (switching_zero N dz _ HN HSw args EA eq_refl) as Edz.
  assert (nth k dz 0 = at0 (t_vals t) i) as Ek.
  { rewrite Edz. apply nth_error_nth. rewrite nth_error_map, Ei. reflexivity. }
  destruct HSel as [_ HSel]. destruct (HSel k) as (A & B & C).
  { rewrite Edz, map_length. apply nth_error_Some. congruence. }
  rewrite Ek in *. unfold right_if_positive. destruct (Rlt_dec 0 _) as [Hp|Hp]; [rewrite A; auto|].
  destruct (Rlt_dec (at0 (t_vals t) i) 0) as [Hn|Hn]; [rewrite B; auto|].
  rewrite C by lra. rewrite Hb. reflexivity.
Qed.
End Straight.

(** ** Slopes that depend on the value only *)
Definition RVp (w : unit) (a : sval) (b : R * R) : Prop :=
  fst b = s_val a /\ snd b = s_der a /\ (s_dep a = false -> s_der a = 0).

Lemma sim_pair_fop sg oc x1 y1 x2 y2 : arity_ok oc y1 -> RVp tt x1 x2 -> orel (RVp tt) y1 y2 ->
  simM false (fun _ _ => True) (fun (_ : unit) (_ : nat) (_ : unit) => True) RVp tt
    (straight_fop (fun _ => sg) oc x1 y1) (pair_fop sg oc x2 y2).
Proof.
  intros Ha (X1 & X2 & X3) Hy s1 s2 _.
  assert (option_map fst y2 = option_map s_val y1 /\ option_map snd y2 = option_map s_der y1) as [Y1 Y2].
  { destruct y1, y2; cbn in *; try contradiction; auto. destruct Hy as (-> & -> & _). auto. }
  unfold straight_fop, pair_fop. rewrite X1, X2, Y1, Y2.
  destruct (zero_order_value Rops oc (s_val x1) (option_map s_val y1)) as [v|]; cbn [bind]; [|discriminate].
  destruct (opcode_eqb oc Abs) eqn:Eo.
  - apply opcode_eqb_eq in Eo. subst oc. cbn [bind]. destruct (s_dep x1) eqn:Ed.
    + eexists _, _, tt. split; [reflexivity|]. split; [auto|]. split; [auto|]. unfold RVp. cbn. repeat split; auto. discriminate.
    + eexists _, _, tt. split; [reflexivity|]. split; [auto|]. split; [auto|]. unfold RVp. cbn.
      rewrite X3 by auto. repeat split; auto. ring.
  - assert (forall d, first_order_value Rops oc (s_val x1) (option_map s_val y1) (s_der x1) (option_map s_der y1) = Ok d ->
      s_dep x1 || match y1 with Some y' => s_dep y' | None => false end = false -> d = 0) as Z.
    { intros d Ef Eb. apply orb_false_iff in Eb as [E1 E2]. rewrite X3 in Ef by auto.
      eapply fov_zero; [|exact Ef]. destruct y1 as [y1|], y2 as [y2|]; cbn in *; try contradiction; auto.
      right. f_equal. apply Hy. auto. }
    destruct (first_order_value Rops oc (s_val x1) (option_map s_val y1) (s_der x1) (option_map s_der y1)) as [d|] eqn:Ef;
      destruct oc; cbn [bind]; try discriminate; try discriminate Eo;
      (eexists _, _, tt; split; [reflexivity|]; split; [auto|]; split; [auto|]; unfold RVp; cbn;
       repeat split; auto).
Qed.

Theorem straight_pair sg (f : func R) x v d : straight_derivative (fun _ => sg) f x v = Ok d ->
  exists ys, pair_eval sg f x v = Ok ys /\ map snd ys = d.
Proof.
  unfold straight_derivative, pair_eval. intros H.
  apply bind_ok in H as ((ys & k) & E & H). injection H as <-. cbn.
  assert (Sim := sim_feval Rops (straight_fop (fun _ => sg)) s_cst s_val (pair_fop sg) (fun c => (c, 0)) fst false
    (fun _ _ => True) (fun (_ : unit) (_ : nat) (_ : unit) => True) RVp).
  specialize (Sim (fun _ => I) (fun _ _ _ _ _ => I) (fun a b x y _ H => H)).
  specialize (Sim (fun w => match w with tt => sim_pair_fop sg end)).
  specialize (Sim (fun w c => conj eq_refl (conj eq_refl (fun _ => eq_refl))) f
    (or_introl (fun w a b HR => eq_sym (proj1 HR))) tt
    (map (fun p => (fst p, snd p, true)) (combine x v)) (combine x v)).
  assert (forall l, RVs RVp tt (map (fun p => (fst p, snd p, true)) l) l) as HRl.
  { induction l as [|p l IH]; cbn; constructor; auto. unfold RVp. cbn. repeat split; auto. discriminate. }
  specialize (Sim (HRl _) O tt I).
  rewrite E in Sim. destruct Sim as (zs & [] & [] & Ez & _ & _ & HRz).
  exists zs. rewrite Ez. split; [reflexivity|].
  clear - HRz. induction HRz as [|a b la lb Hab HRz IH]; cbn; auto. f_equal; auto. apply Hab.
Qed.

(** max and min select one of their arguments, value and derivative together. *)
Lemma pair_max a b : meth2 Rops (pair_fop right_if_positive) (fun c => (c, 0)) BMax a b tt =
  Ok (if Rlt_dec (fst b) (fst a) then a else b, tt).
Proof.
  destruct a as [a a'], b as [b b']. cbn -[Rlt_dec]. unfold m_max, mbind, pair_fop. cbn.
  unfold m_add, m_sub, m_abs, m_mul. cbn. unfold right_if_positive. cbn.
  destruct (Rlt_dec b a) as [H|H].
  - destruct (Rlt_dec 0 (a - b)); [|lra]. do 3 f_equal; [rewrite Rabs_right by lra; field|field].
  - destruct (Rlt_dec 0 (a - b)); [lra|]. do 3 f_equal; [rewrite Rabs_left1 by lra; field|field].
Qed.
Lemma pair_min a b : meth2 Rops (pair_fop right_if_positive) (fun c => (c, 0)) BMin a b tt =
  Ok (if Rlt_dec (fst b) (fst a) then b else a, tt).
Proof.
  destruct a as [a a'], b as [b b']. cbn -[Rlt_dec]. unfold m_min, mbind, pair_fop. cbn.
  unfold m_add, m_sub, m_abs, m_mul. cbn. unfold right_if_positive. cbn.
  destruct (Rlt_dec b a) as [H|H].
  - destruct (Rlt_dec 0 (a - b)); [|lra]. do 3 f_equal; [rewrite Rabs_right by lra; field|field].
  - destruct (Rlt_dec 0 (a - b)); [lra|]. do 3 f_equal; [rewrite Rabs_left1 by lra; field|field].
Qed.

(** The values are the ordinary ones. *)
Theorem pair_values sg (f : func R) x v ys : length v = length x -> pair_eval sg f x v = Ok ys ->
  v_eval Rops f x = Ok (map fst ys).
Proof.
  intros L H. unfold pair_eval in H. apply bind_ok in H as ((zs & []) & E & H). injection H as <-.
  assert (Sim := sim_feval Rops (pair_fop sg) (fun c => (c, 0)) fst (v_fop Rops) (fun c => c) (fun v => v) false
    (fun _ _ => True) (fun (_ : unit) (_ : unit) (_ : unit) => True) (fun _ (a : R * R) b => fst a = b)).
  specialize (Sim (fun _ => I) (fun _ _ _ _ _ => I) (fun a b x y _ H => H)).
  assert (forall (w : unit) oc (x1 : R * R) y1 x2 y2, arity_ok oc y1 -> fst x1 = x2 ->
    orel (fun (a : R * R) b => fst a = b) y1 y2 ->
    simM false (fun _ _ => True) (fun (_ : unit) (_ : unit) (_ : unit) => True) (fun _ (a : R * R) b => fst a = b) w
      (pair_fop sg oc x1 y1) (v_fop Rops oc x2 y2)) as HF.
  { intros w oc x1 y1 x2 y2 Ha <- Hy s1 s2 _.
    assert (option_map fst y1 = y2) as <- by (destruct y1, y2; cbn in *; try contradiction; congruence).
    unfold pair_fop, v_fop, mlift. destruct (zero_order_value Rops oc (fst x1) (option_map fst y1)) as [r|]; cbn [bind]; [|discriminate].
    match goal with |- context [bind ?m _] => destruct m as [d|] end; cbn [bind]; [|discriminate].
    eexists _, _, tt. split; [reflexivity|]. auto. }
  specialize (Sim HF (fun w c => eq_refl) f (or_introl (fun w a b HR => HR)) tt (combine x v) x).
  assert (RVs (fun (_ : unit) (a : R * R) b => fst a = b) tt (combine x v) x) as HRl.
  { clear -L. revert v L. induction x as [|a x IH]; intros [|b v] L; try discriminate; cbn; constructor; auto. apply IH. auto. }
  specialize (Sim HRl tt tt I). rewrite E in Sim. destruct Sim as (qs & [] & [] & Ez & _ & _ & HRz).
  unfold v_eval. rewrite Ez. cbn. f_equal. clear - HRz. induction HRz; cbn; auto. f_equal; auto.
Qed.

(** The zero direction stays zero. *)
Lemma forward_zero (t : tape R) : wf_tape t -> tape_forward Rops t (repeat 0 (num_indeps t)) = Ok (repeat 0 (num_deps t)).
Proof.
  intros W. destruct (forward_tangents Rops t (repeat 0 (num_indeps t)) W) as (D & y & T & E & G); [apply repeat_length|].
  assert (D = repeat 0 (length (t_vals t))) as ->.
  { eapply tangents_at_unique; [exact W|exact T|]. destruct T as [T1 T2 T3 T4].
    assert (forall i, (i < length (t_vals t))%nat -> nth_error (repeat 0 (length (t_vals t))) i = Some 0) as N0
      by (intros; apply nth_error_repeat; auto).
    assert (forall i d, nth_error D i = Some d -> nth_error (repeat 0 (length (t_vals t))) i = Some 0) as N1.
    { intros i d H. apply N0. rewrite <- T1. apply nth_error_Some. congruence. }
    constructor.
    - apply repeat_length.
    - intros k i Hk. destruct (T2 k i Hk) as (a & Ha & Hd). exists 0. split; [|eauto].
      apply nth_error_repeat. rewrite <- (repeat_length 0 (num_indeps t)). apply nth_error_Some. congruence.
    - intros o Ho. specialize (T3 o Ho). pose proof (wf_ops _ W o Ho) as WO.
      unfold tangent_eq in *. destruct (opcode o) eqn:Eo; auto; try (apply N1 in T3; exact T3);
      destruct T3 as (i & a & d & r & A1 & A2 & A3 & A4 & A5); exists i, a, 0, 0;
      (split; [auto|]); (split; [auto|]); (split; [eauto|]); (split; [eauto|]);
      (destruct (arg2 o) as [j|];
       [destruct A5 as (b & e & B1 & B2 & B3); exists b, 0; (split; [auto|]); (split; [eauto|])|]);
      match goal with |- ?m = Ok 0 => let q := fresh in destruct m as [q|] eqn:Eq;
        [f_equal; refine (fov_zero _ _ _ _ _ _ Eq); auto|exfalso; first [clear -A5 Eq | clear -B3 Eq]; cbn in *; discriminate] end.
    - intros k Hk _ _. auto. }
  rewrite E. f_equal. apply gather_map in G. rewrite G.
  apply nth_ext0; [rewrite map_length, repeat_length; auto|]. intros i Hi. rewrite map_length in Hi.
  rewrite nth_repeat. rewrite (nth_indep _ 0 (at0 (repeat 0 (length (t_vals t))) 0)) by (rewrite map_length; auto).
  rewrite (map_nth (at0 _)). apply at0_repeat.
Qed.
