(** When the drivers panic, in every arithmetic. *)
From Coq Require Import List Arith ZArith NArith Bool Lia.
From Verif Require Import Base Float Operation Tape AContext Methods Function Spec TapeFacts FunctionFacts
  Instances RecordFacts ReplayFacts SweepFacts Replay2 AContextFacts Matrix MatrixFacts Jacobian JacobianFacts AbsNormal AbsNormalFacts
  Checkpoint CheckSpec CheckFacts CheckMain GenJac DriverSpec.
Import ListNotations.

Section DriverPanics.
Context {F : Type} (Fo : Fops F).
Context (red : list (list (nat * list F)) -> list (nat * list F)) (HR : rayon red).

Lemma not_panics {A} (r : res A) : ~ panics r <-> exists a, r = Ok a.
Proof.
  split.
  - destruct r as [a|p]; [eauto|]. intros H. destruct H. exists p. auto.
  - intros (a & ->) (p & [=]).
Qed.

(** ** Shapes *)
Lemma v_zip_len f (x y : list F) : length x = length y -> length (v_zip f x y) = length x.
Proof. intros E. unfold v_zip. rewrite map_length, combine_length. lia. Qed.
Lemma v_add_total (x y : list F) : length x = length y -> exists z, v_add Fo x y = Ok z /\ length z = length x.
Proof.
  intros E. unfold v_add. rewrite E, Nat.eqb_refl. eexists. split; [reflexivity|]. rewrite v_zip_len; auto.
Qed.
Lemma v_sub_total (x y : list F) : length x = length y -> exists z, v_sub Fo x y = Ok z /\ length z = length x.
Proof.
  intros E. unfold v_sub. rewrite E, Nat.eqb_refl. eexists. split; [reflexivity|]. rewrite v_zip_len; auto.
Qed.
Lemma m_mulv_total A (x : list F) : wf_mat A -> m_cols A = length x ->
  exists y, m_mulv Fo A x = Ok y /\ length y = m_rows A.
Proof.
  intros [L _] E. unfold m_mulv. rewrite E, Nat.eqb_refl. eexists. split; [reflexivity|]. rewrite map_length. auto.
Qed.
Lemma m_add2_total A B : wf_mat A -> wf_mat B -> m_rows A = m_rows B -> m_cols A = m_cols B ->
  exists C, m_add2 Fo A B = Ok C /\ wf_mat C /\ m_rows C = m_rows A /\ m_cols C = m_cols A.
Proof.
  intros [LA RA] [LB RB] E1 E2. unfold m_add2. rewrite E1, E2, !Nat.eqb_refl. cbn [andb].
  eexists. split; [reflexivity|]. cbn [m_rows m_cols]. split; [|auto]. split; cbn [m_dat m_rows m_cols].
  - rewrite map_length, combine_length. lia.
  - rewrite Forall_forall in *. intros r Hr. apply in_map_iff in Hr as ((u & v) & <- & Hr). cbn [fst snd].
    rewrite v_zip_len; [rewrite RA|rewrite RA, RB]; auto; eauto using in_combine_l, in_combine_r.
Qed.
Lemma scale_cols_total A (sg : list F) : wf_mat A -> length sg = m_cols A -> wf_mat (scale_cols Fo A sg).
Proof.
  intros [LA RA] E. split; cbn; [rewrite map_length; auto|].
  rewrite Forall_forall in *. intros r Hr. apply in_map_iff in Hr as (u & <- & Hr).
  rewrite v_zip_len; [|rewrite RA; auto]; auto.
Qed.

Lemma mul_right_vec_total t v : wf_tape t -> length v = num_indeps t ->
  exists y, mul_right_vec Fo red t v = Ok y /\ length y = num_deps t.
Proof.
  intros W E. unfold mul_right_vec.
  destruct (mul_right_total Fo red HR t (m_of_vec v) W) as (A & -> & [LA RA] & R & C); [|exact E|].
  { split; cbn; [apply map_length|]. rewrite Forall_forall. intros r Hr. apply in_map_iff in Hr as (? & <- & _). auto. }
  cbn [bind]. cbn in C.
  rewrite (mapM_fun _ (fun row => nth 0 row (f_zero Fo))).
  - eexists. split; [reflexivity|]. rewrite map_length. lia.
  - intros r Hr. rewrite Forall_forall in RA. specialize (RA r Hr). unfold get.
    destruct r as [|a r]; cbn in *; [lia|auto].
Qed.

Lemma dz_loop_total lt dzt s : wf_tape lt -> num_indeps lt = s -> num_deps lt = s -> length dzt = s ->
  forall k dz, length dz = s -> exists dz', dz_loop Fo red lt dzt k dz = Ok dz' /\ length dz' = s.
Proof.
  intros W E1 E2 E3. induction k as [|k IH]; intros dz L; cbn [dz_loop]; eauto.
  destruct (mul_right_vec_total lt (v_abs Fo dz) W) as (p & -> & Lp); [unfold v_abs; rewrite map_length; lia|].
  cbn [bind]. destruct (v_add_total dzt p) as (dz' & -> & Ld); [lia|]. cbn [bind].
  destruct (v_eqb Fo dz' dz); [|apply IH; lia]. exists dz'. split; [auto|lia].
Qed.

Lemma signs_loop_total bits : forall dz k q sg q', signs_loop Fo bits k q dz = (sg, q') ->
  length sg = length dz /\ q <= q' /\ q' <= q + length dz.
Proof.
  induction dz as [|d dz IH]; intros k q sg q' E; cbn [signs_loop] in E.
  - injection E as <- <-. cbn. lia.
  - destruct (f_ltb Fo d (f_zero Fo)); [|destruct (f_ltb Fo (f_zero Fo) d)].
    + destruct (signs_loop Fo bits k q dz) as [s1 q1] eqn:E1. injection E as <- <-. apply IH in E1. cbn. lia.
    + destruct (signs_loop Fo bits k q dz) as [s1 q1] eqn:E1. injection E as <- <-. apply IH in E1. cbn. lia.
    + destruct (bit_next bits k) as [b k']. destruct (signs_loop Fo bits k' (q + 1) dz) as [s1 q1] eqn:E1.
      injection E as <- <-. apply IH in E1. cbn. lia.
Qed.

Lemma u_loop_total lt sg base r s : wf_tape lt -> (forall o, In o (t_ops lt) -> opcode o <> Abs) ->
  num_indeps lt = s -> num_deps lt = s -> length sg = s -> wf_mat base -> m_rows base = r -> m_cols base = s ->
  forall k u, wf_mat u -> m_rows u = r -> m_cols u = s ->
  exists u', u_loop Fo red lt sg base k u = Ok u' /\ wf_mat u' /\ m_rows u' = r /\ m_cols u' = s.
Proof.
  intros W NA E1 E2 E3 WB RB CB. induction k as [|k IH]; intros u Wu Ru Cu; cbn [u_loop]; eauto.
  destruct (mul_left_total Fo red HR lt u W NA Wu) as (u1 & -> & W1 & R1 & C1); [lia|]. cbn [bind].
  destruct (m_add2_total (scale_cols Fo u1 sg) base) as (u2 & -> & W2 & R2 & C2); auto;
    [apply scale_cols_total; auto; lia|cbn; lia|cbn; lia|]. cbn [bind]. cbn in R2, C2.
  destruct (m_eqb Fo u2 u); [|apply IH; auto; lia]. exists u2. split; [auto|]. split; [auto|]. lia.
Qed.

(** ** generalized_jacobian_tape *)
Theorem gj_tape_total (t : tape F) dx bits next : wf_tape t -> wf_next next ->
  length dx = num_indeps t -> next_fits (num_deps t) next ->
  exists G, generalized_jacobian_tape Fo red t dx bits next = Ok G /\ wf_mat (g_hom G) /\
    m_rows (g_hom G) = rows_out (num_deps t) next /\ m_cols (g_hom G) = num_indeps t /\
    length (g_inh G) = rows_out (num_deps t) next /\
    mult_in next <= g_mult G /\ g_mult G <= mult_in next + num_abs t.
Proof.
  intros W WN LD NF. unfold generalized_jacobian_tape. rewrite LD, Nat.eqb_refl. cbn [assert bind].
  destruct (an_new_ok t W) as (args & EA & EN). rewrite EN. set (a := mkAN _ _ _ _ _ _) in *. cbn [bind].
  destruct (sub_tapes t a args EN EA) as (-> & -> & -> & -> & _).
  pose proof (sub_z t W args EA) as Sz. pose proof (sub_l t W args EA) as Sl.
  pose proof (sub_j t W) as Sj. pose proof (sub_y t W) as Sy.
  pose proof (sub_of_wf t W _ Sz) as Wz. pose proof (sub_of_wf t W _ Sl) as Wl.
  pose proof (sub_of_wf t W _ Sj) as Wj. pose proof (sub_of_wf t W _ Sy) as Wy.
  pose proof (sub_of_ops t _ Sz) as Nz. pose proof (sub_of_ops t _ Sl) as Nl.
  pose proof (sub_of_ops t _ Sj) as Nj. pose proof (sub_of_ops t _ Sy) as Ny.
  assert (length args = num_abs t) as LA by (apply mapM_ok_length in EA; auto).
  pose proof (abs_ids_length t) as LI.
  set (zt := mk_sub t (t_indeps t) args) in *. set (lt := mk_sub t (abs_ids t) args) in *.
  set (jt := mk_sub t (t_indeps t) (t_deps t)) in *. set (yt := mk_sub t (abs_ids t) (t_deps t)) in *.
  assert (num_indeps zt = num_indeps t /\ num_deps zt = num_abs t) as [Iz Dz] by (split; [reflexivity|exact LA]).
  assert (num_indeps lt = num_abs t /\ num_deps lt = num_abs t) as [Il Dl] by (split; [exact LI|exact LA]).
  assert (num_indeps jt = num_indeps t /\ num_deps jt = num_deps t) as [Ij Dj] by (split; reflexivity).
  assert (num_indeps yt = num_abs t /\ num_deps yt = num_deps t) as [Iy Dy] by (split; [exact LI|reflexivity]).
  clearbody zt lt jt yt.
  assert (exists z, an_z a = Ok z /\ length z = num_abs t) as (z & -> & Lz).
  { unfold an_z, a. cbn. rewrite EA. cbn. destruct (gather_ok args (t_vals t)) as [z Ez].
    - intros d Hd. eapply abs_args_range; eauto.
    - exists z. split; auto. apply gather_length in Ez. lia. }
  cbn [bind].
  assert (length (v_abs Fo z) = num_abs t) as Lza by (unfold v_abs; rewrite map_length; auto).
  destruct (mul_right_vec_total lt (v_abs Fo z) Wl) as (lz & -> & Llz); [lia|]. cbn [bind].
  destruct (v_sub_total z lz) as (av & -> & Lav); [lia|]. cbn [bind].
  destruct (mul_right_vec_total yt (v_abs Fo z) Wy) as (yz & -> & Lyz); [lia|]. cbn [bind].
  destruct (mul_right_vec_total zt dx Wz) as (zdx & -> & Lzdx); [lia|]. cbn [bind].
  destruct (v_add_total av zdx) as (dzt & -> & Ldzt); [lia|]. cbn [bind].
  destruct (dz_loop_total lt dzt (num_abs t) Wl Il Dl ltac:(lia) (num_abs t) dzt ltac:(lia)) as (dz & -> & Ldz).
  cbn [bind]. destruct (signs_loop Fo bits 0 0 dz) as [sg q] eqn:Es.
  apply signs_loop_total in Es as (Lsg & _ & Hq). rewrite Ldz in *.
  assert (exists g2 gamma2 mult, match next with
      | Some g => (g_hom g, g_inh g, q + g_mult g)
      | None => (m_id Fo (num_deps t), repeat (f_zero Fo) (num_deps t), q) end = (g2, gamma2, mult) /\
      wf_mat g2 /\ m_rows g2 = rows_out (num_deps t) next /\ m_cols g2 = num_deps t /\
      length gamma2 = rows_out (num_deps t) next /\ mult = q + mult_in next)
    as (g2 & gamma2 & mult & -> & Wg & Rg & Cg & Lg & ->).
  { destruct next as [g|]; cbn in *.
    - destruct NF as [N1 N2]. eexists _, _, _. split; [reflexivity|]. auto.
    - eexists _, _, _. split; [reflexivity|]. split; [apply m_tab_wf|]. rewrite repeat_length. split; [reflexivity|].
      split; [reflexivity|]. split; [auto|]. lia. }
  destruct (mul_left_total Fo red HR yt g2 Wy Ny Wg) as (ys & -> & Wys & Rys & Cys); [lia|]. cbn [bind].
  destruct (u_loop_total lt sg (scale_cols Fo ys sg) (rows_out (num_deps t) next) (num_abs t) Wl Nl Il Dl) with
    (k := num_abs t) (u := scale_cols Fo ys sg) as (u & -> & Wu & Ru & Cu);
    try apply scale_cols_total; auto; cbn; try lia.
  cbn [bind].
  destruct (mul_left_total Fo red HR jt g2 Wj Nj Wg) as (gj & -> & Wgj & Rgj & Cgj); [lia|]. cbn [bind].
  destruct (mul_left_total Fo red HR zt u Wz Nz Wu) as (uz & -> & Wuz & Ruz & Cuz); [lia|]. cbn [bind].
  destruct (m_add2_total gj uz) as (hom & -> & Wh & Rh & Ch); auto; try lia. cbn [bind].
  destruct (m_mulv_total g2 (v_neg Fo yz) Wg) as (g2b & -> & Lg2b); [unfold v_neg; rewrite map_length; lia|]. cbn [bind].
  destruct (v_add_total gamma2 g2b) as (i1 & -> & Li1); [lia|]. cbn [bind].
  destruct (m_mulv_total u av Wu) as (ua & -> & Lua); [lia|]. cbn [bind].
  destruct (v_add_total i1 ua) as (inh & -> & Linh); [lia|]. cbn [bind].
  eexists. split; [reflexivity|]. cbn [g_hom g_inh g_mult].
  split; [auto|]. split; [lia|]. split; [lia|]. split; [lia|]. lia.
Qed.

Theorem gj_tape_panics (t : tape F) dx bits next : wf_tape t -> wf_next next ->
  (panics (generalized_jacobian_tape Fo red t dx bits next) <->
   length dx <> num_indeps t \/ ~ next_fits (num_deps t) next).
Proof.
  intros W WN. split.
  - intros P. destruct (Nat.eq_dec (length dx) (num_indeps t)) as [E|E]; [|auto]. right. intros NF.
    destruct (gj_tape_total t dx bits next W WN E NF) as (G & EG & _). destruct P as (p & P). congruence.
  - intros H. destruct (generalized_jacobian_tape Fo red t dx bits next) as [G|p] eqn:E; [|exists p; auto]. exfalso.
    unfold generalized_jacobian_tape in E.
    destruct (Nat.eqb_spec (length dx) (num_indeps t)) as [LD|LD]; cbn [assert bind] in E; [|discriminate E].
    destruct H as [H|H]; [auto|]. apply H. clear H.
    destruct next as [g|]; [|exact I].
    apply bind_ok in E as (a & EN & E).
    destruct (an_new_ok t W) as (args & EA & EN'). rewrite EN' in EN. injection EN as <-.
    destruct (sub_tapes t _ args EN' EA) as (_ & _ & _ & Ty & _). rewrite Ty in E. clear Ty.
    repeat match type of E with
    | bind (mul_left _ _ (mk_sub t (abs_ids t) (t_deps t)) _) _ = _ => fail 1
    | bind _ _ = Ok _ => let v := fresh "v" in let e := fresh "e" in apply bind_ok in E as (v & e & E)
    | (let '(_, _) := ?s in _) = _ => destruct s
    end.
    apply bind_ok in E as (ys & Eys & E).
    assert (m_cols (g_hom g) = num_deps t) as EC.
    { destruct (Nat.eq_dec (m_cols (g_hom g)) (num_deps t)) as [|NE]; auto.
      rewrite mul_left_dim in Eys by exact NE. discriminate Eys. }
    split; [auto|].
    repeat match type of E with
    | bind _ _ = Ok _ => let v := fresh "v" in let e := fresh "e" in apply bind_ok in E as (v & e & E)
    end.
    match goal with H : m_mulv Fo (g_hom g) _ = Ok ?v, H2 : v_add Fo (g_inh g) ?v = Ok _ |- _ =>
      rename H into E1; rename H2 into E2 end.
    unfold m_mulv in E1. destruct (_ =? _); [|discriminate E1]. injection E1 as <-.
    unfold v_add in E2. match type of E2 with (if ?p =? ?q then _ else _) = _ => destruct (Nat.eqb_spec p q) as [EL|] end;
      [|discriminate E2].
    rewrite EL, map_length. apply WN.
Qed.

(** ** generalized_jacobian *)
Theorem gj_panics f n x dx bits next w : fn_n f = Ok n -> wf_next next ->
  (panics (generalized_jacobian Fo red f x dx bits next w) <->
   length x <> n \/ panics (eval_float Fo f x w) \/
   exists y w', eval_float Fo f x w = Ok (y, w') /\ (length dx <> n \/ ~ next_fits (length y) next)).
Proof.
  intros En WN. unfold generalized_jacobian, mbind, mlift. rewrite En.
  destruct (Nat.eqb_spec (length x) n) as [Lx|Lx]; cbn [assert].
  2: { split; [auto|]. intros _. eexists. reflexivity. }
  pose proof (fn_tape_total Fo f x w) as T. rewrite eval_float_v.
  destruct (v_eval Fo f x) as [y|p] eqn:Ev; cbn [bind].
  - destruct T as (t & w' & HT). rewrite HT.
    destruct (fn_tape_fresh Fo _ _ _ _ _ HT) as (_ & (y' & Hv & _ & Hm) & Hn & _).
    assert (y' = y) as -> by congruence.
    destruct (fn_tape_wf Fo _ _ _ _ _ HT) as ([W _] & _).
    pose proof (gj_tape_panics t dx bits next W WN) as P. rewrite Hm, Hn, Lx in P.
    assert (panics (match generalized_jacobian_tape Fo red t dx bits next with Ok a => Ok (a, w') | Panic p => Panic p end)
            <-> panics (generalized_jacobian_tape Fo red t dx bits next)) as ->.
    { destruct (generalized_jacobian_tape Fo red t dx bits next) as [G|p].
      - split; intros (p & [=]).
      - split; intros _; eexists; reflexivity. }
    rewrite P. split.
    + intros H. right. right. eauto.
    + intros [H|[(p & [=])|(y0 & w0 & [= <- <-] & H)]]; [congruence|auto].
  - rewrite T. split; [|intros _; eexists; reflexivity]. intros _. right. left. eexists. reflexivity.
Qed.

(** ** The Jacobian drivers *)
Theorem reverse_driver_panics (t : tape F) : wf_tape t ->
  (panics (jacobian_reverse Fo red t) <-> num_deps t <> 0 /\ has_abs t).
Proof.
  intros W.
  assert (forall i, i < num_deps t -> (panics (tape_reverse Fo t (unitv Fo (num_deps t) i)) <-> has_abs t)) as H.
  { intros i Hi. rewrite reverse_panics by auto. rewrite unitv_length. unfold num_deps. split; [intros [|]; [lia|auto]|auto]. }
  split.
  - intros P. destruct (Nat.eq_dec (num_deps t) 0) as [E0|E0].
    + destruct P as (p & P).
      rewrite (jacobian_reverse_eq Fo red t (fun _ => []) HR) in P by (intros; lia). discriminate P.
    + split; [auto|].
      destruct (existsb is_abs (t_ops t)) eqn:Ex.
      * apply existsb_exists in Ex as (o & Ho & Hb). exists o. split; [auto|].
        unfold is_abs in Hb. destruct (opcode o); cbn in Hb; congruence.
      * exfalso. assert (~ has_abs t) as NH.
        { intros (o & Ho & Eo). assert (existsb is_abs (t_ops t) = true); [|congruence].
          apply existsb_exists. exists o. split; [auto|]. unfold is_abs. rewrite Eo. reflexivity. }
        destruct P as (p & P).
        rewrite (jacobian_reverse_eq Fo red t (fun i => match tape_reverse Fo t (unitv Fo (num_deps t) i) with Ok v => v | Panic _ => [] end) HR) in P.
        { discriminate P. }
        intros i Hi. destruct (tape_reverse Fo t (unitv Fo (num_deps t) i)) as [v|q] eqn:E; [auto|].
        exfalso. apply NH. apply (H i Hi). exists q. auto.
  - intros (Hm & HA). assert (panics (tape_reverse Fo t (unitv Fo (num_deps t) 0))) as (p & P) by (apply H; [lia|auto]).
    unfold jacobian_reverse.
    match goal with |- panics (bind ?m _) => assert (panics m) as (q & ->); [|exists q; reflexivity] end.
    destruct (num_deps t) as [|k]; [lia|]. cbn [seq mapM]. rewrite unit_vec_ok by lia. cbn [bind]. rewrite P.
    exists p. reflexivity.
Qed.

Theorem forward_driver_panics f n m x w : fn_n f = Ok n -> fn_m f = Ok m ->
  (panics (jacobian_forward Fo red f x w) <->
   length x <> n \/ n <> 0 /\ (panics (eval_float Fo f x w) \/
                               exists y w', eval_float Fo f x w = Ok (y, w') /\ length y < m)).
Proof.
  intros En Em. destruct (Nat.eq_dec (length x) n) as [Lx|Lx].
  2: { split; [auto|]. intros _. unfold jacobian_forward. rewrite En, Em. cbn [bind].
       destruct (Nat.eqb_spec (length x) n); [congruence|]. eexists. reflexivity. }
  assert (forall j, j < n ->
    match v_eval Fo f x with
    | Ok y => exists outs, eval Fo f (map (fun p => af_new (fst p) (snd p)) (combine x (unitv Fo n j))) w = Ok (outs, w) /\ length outs = length y
    | Panic p => eval Fo f (map (fun p => af_new (fst p) (snd p)) (combine x (unitv Fo n j))) w = Panic p
    end) as HE.
  { intros j Hj. rewrite eval_detached. pose proof (d_eval_values Fo f (combine x (unitv Fo n j))) as D.
    rewrite map_fst_combine in D by (rewrite unitv_length; auto). rewrite D.
    destruct (d_eval Fo f (combine x (unitv Fo n j))) as [y|p]; cbn [bind]; auto.
    eexists. split; [reflexivity|]. rewrite !map_length. auto. }
  rewrite eval_float_v. destruct (Nat.eq_dec n 0) as [N0|N0].
  { split.
    - intros (p & P). rewrite (jacobian_forward_eq Fo red f x w n m (fun _ => []) HR En Em Lx) in P by (intros; lia).
      discriminate P.
    - intros [|[]]; congruence. }
  destruct (v_eval Fo f x) as [y|p] eqn:Ev; cbn [bind].
  - destruct (Nat.lt_ge_cases (length y) m) as [Hl|Hl].
    + split; [intros _; right; split; [auto|]; right; eauto|]. intros _.
      unfold jacobian_forward. rewrite En, Em. cbn [bind]. rewrite Lx, Nat.eqb_refl. cbn [assert bind].
      rewrite (mapM_fun _ (fun j => [(j, match eval Fo f (map (fun p => af_new (fst p) (snd p)) (combine x (unitv Fo n j))) w with
                                          Ok (o, _) => map af_dv o | _ => [] end)])).
      2: { intros j Hj. apply in_seq in Hj. rewrite unit_vec_ok by lia. cbn [bind].
           destruct (HE j ltac:(lia)) as (o & -> & _). reflexivity. }
      cbn [bind]. rewrite (rayon_concat red _ HR), concat_singletons.
      destruct n as [|k]; [lia|]. cbn [seq map foldM].
      match goal with |- panics (bind ?m _) => assert (panics m) as (q & ->); [|exists q; reflexivity] end.
      destruct (HE 0 ltac:(lia)) as (o & Eo & Lo). cbn [fst snd].
      rewrite Eo. unfold m_fill_col.
      assert (forall l A, In (length y) l -> panics (foldM (fun (A : matrix F) i => a <- get (map af_dv o) i ;; m_set A i 0 a) l A)) as HP.
      { induction l as [|i l IH]; intros A Hi; [destruct Hi|]. cbn [foldM].
        destruct (a <- get (map af_dv o) i;; m_set A i 0 a) as [A'|q] eqn:EA; cbn [bind]; [|exists q; auto].
        apply IH. destruct Hi as [->|Hi]; [|auto]. exfalso. apply bind_ok in EA as (a & Ea & _).
        unfold get in Ea. destruct (nth_error (map af_dv o) (length y)) eqn:En'; [|discriminate Ea].
        assert (length y < length (map af_dv o)) by (apply nth_error_Some; congruence).
        rewrite map_length in *. lia. }
      apply HP. apply in_seq. lia.
    + split.
      * intros (p & P). exfalso.
        rewrite (jacobian_forward_eq Fo red f x w n m (fun j => match eval Fo f (map (fun p => af_new (fst p) (snd p)) (combine x (unitv Fo n j))) w with
                                          Ok (o, _) => o | _ => [] end) HR En Em Lx) in P; [discriminate P| |].
        -- intros j Hj. exists w. destruct (HE j Hj) as (o & E & _). unfold pairs. rewrite E. reflexivity.
        -- intros j Hj. destruct (HE j Hj) as (o & E & L). rewrite E. lia.
      * intros [|(_ & [(p & [=])|(y' & w' & [= <- <-] & H)])]; [congruence|lia].
  - split; [intros _; right; split; [auto|]; left; eexists; reflexivity|]. intros _.
    unfold jacobian_forward. rewrite En, Em. cbn [bind]. rewrite Lx, Nat.eqb_refl. cbn [assert bind].
    match goal with |- panics (bind ?m _) => assert (panics m) as (q & ->); [|exists q; reflexivity] end.
    destruct n as [|k]; [lia|]. cbn [seq mapM]. rewrite unit_vec_ok by lia. cbn [bind].
    rewrite (HE 0 ltac:(lia)). exists p. reflexivity.
Qed.

(** ** The chain driver *)
Lemma eval_world2 f (x : list (F * F)) w :
  match eval Fo f (map (fun p => af_new (fst p) (snd p)) x) world0 with
  | Ok (y, _) => eval Fo f (map (fun p => af_new (fst p) (snd p)) x) w = Ok (y, w)
  | Panic p => eval Fo f (map (fun p => af_new (fst p) (snd p)) x) w = Panic p
  end.
Proof. rewrite !eval_detached. destruct (d_eval Fo f x); cbn; auto. Qed.

Lemma gj_world2 f x dx bits next w :
  match generalized_jacobian Fo red f x dx bits next world0 with
  | Ok (G, _) => exists w', generalized_jacobian Fo red f x dx bits next w = Ok (G, w')
  | Panic p => generalized_jacobian Fo red f x dx bits next w = Panic p
  end.
Proof.
  unfold generalized_jacobian, mbind, mlift. destruct (fn_n f); auto.
  destruct (assert _); auto. pose proof (fn_tape_world Fo f x world0 w) as H.
  destruct (fn_tape Fo f x world0) as [[t w0]|p]; [|rewrite H; auto].
  destruct H as [w2 ->]. destruct (generalized_jacobian_tape Fo red t dx bits next); eauto.
Qed.

Definition p_fw (c : func F) (st : nat * list F * list F) : res (nat * list F * list F) :=
  let '(i, x, dx) := st in
  f <- chain_nth c i ;;
  yw <- eval Fo f (map (fun p => af_new (fst p) (snd p)) (combine x dx)) world0 ;;
  Ok ((i + 1)%nat, map af_v (fst yw), map af_dv (fst yw)).
Definition p_rv (c : func F) (st : nat * list F * list F) (g : gjac F) : res (gjac F) :=
  let '(i, x, dx) := st in
  f <- chain_nth c i ;;
  gw <- generalized_jacobian Fo red f x dx [0%N] (Some g) world0 ;; Ok (fst gw).
Definition p_id (st : nat * list F * list F) : res (gjac F) :=
  let '(_, x, _) := st in Ok (mkG (m_id Fo (length x)) (repeat (f_zero Fo) (length x)) 0).

Lemma p_acts_fw c : acts (fun _ => True) (gj_forward Fo c) (p_fw c).
Proof.
  intros [[i x] dx] w _. unfold gj_forward, p_fw, mbind, mlift. destruct (chain_nth c i) as [f|]; cbn [bind]; auto.
  pose proof (eval_world2 f (combine x dx) w) as H. destruct (eval Fo f _ world0) as [[y w1]|p]; rewrite H; cbn; auto.
  exists w. split; [reflexivity|auto].
Qed.
Lemma p_acts_rv c : acts2 (fun _ => True) (gj_reverse Fo red c) (p_rv c).
Proof.
  intros [[[i x] dx] g] w _. cbn [fst snd]. unfold gj_reverse, p_rv, mbind, mlift.
  destruct (chain_nth c i) as [f|]; cbn [bind]; auto.
  pose proof (gj_world2 f x dx [0%N] (Some g) w) as H.
  destruct (generalized_jacobian Fo red f x dx _ _ world0) as [[G w1]|p]; cbn; auto.
  destruct H as [w' ->]. eauto.
Qed.
Lemma p_acts_id : acts (fun _ => True) (gj_identity Fo) p_id.
Proof. intros [[i x] dx] w _. exists w. split; [reflexivity|auto]. Qed.

Lemma fold_fits c : forall n i x dx, (i + n = chain_len c)%nat -> length dx = length x ->
  match reverse_fold (p_fw c) (p_rv c) p_id n (i, x, dx) with
  | Ok G => exists y, reaches Fo (skipn i (fn_iter c)) x y /\ wf_mat (g_hom G) /\
      m_rows (g_hom G) = length y /\ m_cols (g_hom G) = length x /\ length (g_inh G) = length y
  | Panic _ => forall y, ~ reaches Fo (skipn i (fn_iter c)) x y
  end.
Proof.
  unfold chain_len. induction n as [|n IH]; intros i x dx E L.
  - cbn. rewrite skipn_all2 by lia. exists x. split; [constructor|]. split; [apply m_tab_wf|].
    rewrite repeat_length. auto.
  - destruct (nth_error (fn_iter c) i) as [f|] eqn:Ef; [|apply nth_error_None in Ef; lia].
    assert (skipn i (fn_iter c) = f :: skipn (i + 1) (fn_iter c)) as ->.
    { rewrite Nat.add_1_r. clear - Ef. revert i Ef. induction (fn_iter c) as [|g l IHl]; intros [|i] Ef; cbn in *; try discriminate.
      - congruence.
      - apply IHl; auto. }
    cbn [reverse_fold]. unfold p_fw at 1. unfold chain_nth. rewrite Ef. cbn [unwrap bind].
    rewrite eval_detached. pose proof (d_eval_values Fo f (combine x dx)) as Ed. rewrite map_fst_combine in Ed by auto.
    destruct (d_eval Fo f (combine x dx)) as [yy|p] eqn:ED; cbn [bind] in Ed |- *.
    2: { intros y HRe. inversion HRe; subst.
         match goal with H : eval_float Fo f x world0 = _ |- _ => rewrite eval_float_v, Ed in H; discriminate H end. }
    cbn [fst]. specialize (IH (i + 1)%nat (map af_v (map (fun p => af_new (fst p) (snd p)) yy)) (map af_dv (map (fun p => af_new (fst p) (snd p)) yy)) ltac:(lia) ltac:(rewrite !map_length; auto)).
    replace (map af_v (map (fun p => af_new (fst p) (snd p)) yy)) with (map fst yy) in *
      by (rewrite map_map; apply map_ext; auto).
    assert (forall y, eval_float Fo f x world0 = Ok (y, world0) <-> y = map fst yy) as HV.
    { intros y. rewrite eval_float_v, Ed. cbn. split; [intros [= <-]; auto|intros ->; auto]. }
    destruct (reverse_fold (p_fw c) (p_rv c) p_id n _) as [G|p]; cbn [bind].
    + destruct IH as (y & HRe & WG & RG & CG & LG).
      unfold p_rv, chain_nth. rewrite Ef. cbn [unwrap bind].
      destruct (fn_n f) as [nf|pn] eqn:Enf.
      * pose proof (gj_panics f nf x dx [0%N] (Some G) world0 Enf WG) as P.
        destruct (generalized_jacobian Fo red f x dx [0%N] (Some G) world0) as [[G' w']|q] eqn:EG; cbn [bind fst].
        -- assert (length x = nf) as Lx.
           { destruct (Nat.eq_dec (length x) nf) as [|NE]; auto. destruct (proj2 P (or_introl NE)) as (q & [=]). }
           exists y. split; [econstructor; eauto; [rewrite Enf, Lx; auto|apply HV; auto]|].
           unfold generalized_jacobian, mbind, mlift in EG. rewrite Enf in EG.
           rewrite Lx, Nat.eqb_refl in EG. cbn [assert] in EG.
           destruct (fn_tape Fo f x world0) as [[t w0]|] eqn:HT; [|discriminate EG].
           destruct (generalized_jacobian_tape Fo red t dx [0%N] (Some G)) as [G0|] eqn:ET; [|discriminate EG].
           injection EG as -> _.
           destruct (fn_tape_fresh Fo _ _ _ _ _ HT) as (_ & (y' & Hv & _ & Hm) & Hn & _).
           assert (y' = map fst yy) as -> by congruence.
           destruct (fn_tape_wf Fo _ _ _ _ _ HT) as ([W _] & _).
           destruct (gj_tape_total t dx [0%N] (Some G) W WG) as (G1 & E1 & W1 & R1 & C1 & L1 & _);
             [rewrite Hn; auto|cbn; rewrite Hm; split; [auto|lia]|].
           assert (G1 = G') as -> by congruence. cbn [rows_out] in R1, L1. rewrite RG in R1, L1. rewrite Hn in C1. auto.
        -- intros y' HRe'. inversion HRe' as [|f0 fs0 x0 y0 z0 N1 N2 N3]; subst.
           apply HV in N2. subst y0.
           assert (nf = length x) as -> by congruence.
           destruct (proj1 P (ex_intro _ q eq_refl)) as [H|[(pp & H)|(y1 & w1 & H1 & [H|H])]].
           ++ congruence.
           ++ rewrite eval_float_v, Ed in H. discriminate H.
           ++ congruence.
           ++ rewrite eval_float_v, Ed in H1. injection H1 as <- _. apply H. cbn. split; [auto|lia].
      * unfold generalized_jacobian, mbind, mlift. rewrite Enf. cbn [bind]. intros y' HRe'. inversion HRe'; subst. congruence.
    + intros y HRe. inversion HRe as [|f0 fs0 x0 y0 z0 N1 N2 N3]; subst. apply HV in N2. subst y0. eapply IH; eauto.
Qed.

Theorem chain_driver_total est c x dx k w :
  accurate est (Z.of_nat (chain_len c) + 1) -> (Z.of_nat (chain_len c) + 1 <= 2 ^ 32)%Z -> 2 <= k ->
  length dx = length x ->
  match generalized_jacobian_chain Fo red est c x dx (Some k) w with
  | Ok (G, _) => exists y, reaches Fo (fn_iter c) x y /\ wf_mat (g_hom G) /\
      m_rows (g_hom G) = length y /\ m_cols (g_hom G) = length x /\ length (g_inh G) = length y
  | Panic _ => forall y, ~ reaches Fo (fn_iter c) x y
  end.
Proof.
  intros A B Hk L. unfold generalized_jacobian_chain.
  pose proof (reverse_sequence_spec est _ _ _ _ _ _ _ (p_acts_fw c) (p_acts_rv c) p_acts_id (chain_len c) k A B Hk
     (0%nat, x, dx) w I) as H.
  pose proof (fold_fits c (chain_len c) 0 x dx eq_refl L) as HF. cbn [skipn] in HF.
  destruct (reverse_fold (p_fw c) (p_rv c) p_id (chain_len c) (0, x, dx)) as [G|p]; cbn [skipn] in *.
  - destruct H as (w' & -> & _). auto.
  - rewrite H. auto.
Qed.

Theorem chain_driver_panics est c x dx k w :
  accurate est (Z.of_nat (chain_len c) + 1) -> (Z.of_nat (chain_len c) + 1 <= 2 ^ 32)%Z -> 2 <= k ->
  length dx = length x ->
  (panics (generalized_jacobian_chain Fo red est c x dx (Some k) w) <-> ~ exists y, reaches Fo (fn_iter c) x y).
Proof.
  intros A B Hk L. pose proof (chain_driver_total est c x dx k w A B Hk L) as H.
  destruct (generalized_jacobian_chain Fo red est c x dx (Some k) w) as [[G w']|p].
  - destruct H as (y & Hy & _). split; [intros (p & [=])|]. intros N. destruct N. eauto.
  - split; [|intros _; eexists; reflexivity]. intros _ (y & Hy). eapply H; eauto.
Qed.
End DriverPanics.
