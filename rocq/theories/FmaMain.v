(** Fused multiply-adds: relations between arithmetics and rounding errors. *)
From Coq Require Import Reals Lra Lia ZArith NArith Bool List SpecFloat Permutation FunctionalExtensionality.
From Flocq Require Import Core BinarySingleNaN.
From Verif Require Import Base Float FloatInst Operation Tape AContext Methods Function Spec Param Instances TapeFacts RealInst F64Facts F64Ops FopsRel BallSpec BallFacts BallMain
  FunctionFacts JacobianFacts CheckSpec Checkpoint CheckMain
  DerivSpec LinearFacts Matrix MatrixFacts AbsNormal AbsNormalFacts AnfSpec RVec AnfFacts AnfFacts2 GenJac GenSpec GenFacts DriverSpec DriverPanics Shape RecordFacts ReplayFacts Replay2 EstF64
  GenBallSpec RelDrivers RelGen GenBallFacts GenBallMain SwitchChain ChainBallSpec ChainBall OrderSpec OrderFacts OrderMain FmaSpec FmaFacts.
Import ListNotations.
Local Open Scope nat_scope.

Section Two.
Context {F1 F2 : Type} (O1 : Fops F1) (O2 : Fops F2) (Q : F1 -> F2 -> Prop) (E1 : F1 -> F1 -> Prop) (E2 : F2 -> F2 -> Prop).
Notation Qs := (Forall2 Q).
Notation mQ := (mrel Q).
Hypothesis H : ops_related O1 O2 Q.
Hypothesis HE1 : eq_like O1 E1.
Hypothesis HE2 : eq_like O2 E2.
Hypothesis C : forall a a' b b', E1 a a' -> Q a' b' -> E2 b' b -> Q a b.
Context (red1 : list (list (nat * list F1)) -> list (nat * list F1)) (red2 : list (list (nat * list F2)) -> list (nat * list F2)).
Hypothesis R1 : rayon red1.
Hypothesis R2 : rayon red2.

Section Fma.
Context (fma1 : F1 -> F1 -> F1 -> F1) (fma2 : F2 -> F2 -> F2 -> F2).
Hypothesis HM : forall x y z a b c, Q x a -> Q y b -> Q z c -> Q (fma1 x y z) (fma2 a b c).
Lemma rel_sum_fby o x x' y y' : Qs x x' -> Qs y y' -> Q (sum_fby O1 fma1 o x y) (sum_fby O2 fma2 o x' y').
Proof.
  intros HX HY. induction o as [j|l IHl r IHr| |j o IH]; cbn; [|apply (q_add _ _ _ H); auto|apply (q_zero _ _ _ H)|].
  - apply (q_mul _ _ _ H); apply (rel_nth _ _ _ H); auto.
  - apply HM; auto; apply (rel_nth _ _ _ H); auto.
Qed.
Lemma rel_mulv_fby s A A' x x' : mQ A A' -> Qs x x' -> rrel Qs (mulv_fby O1 fma1 s A x) (mulv_fby O2 fma2 s A' x').
Proof.
  intros [A1 A2 A3] HX. unfold mulv_fby. rewrite A2, (F2_len _ _ _ HX). destruct (_ =? _); cbn; auto.
  rewrite (F2_len _ _ _ A3). generalize 0 (length (m_dat A')). induction A3 as [|r r' l l' Hr HL IH]; intros a n; destruct n as [|n]; cbn; constructor.
  - apply rel_sum_fby; auto.
  - apply IH.
Qed.
End Fma.
Definition rel_products (mvs1 : nat -> @products2 F1) (mvs2 : nat -> @products2 F2) : Prop := forall i,
  (forall A A' x x', mQ A A' -> Qs x x' -> rrel Qs (fst (mvs1 i) A x) (fst (mvs2 i) A' x')) /\
  (forall A A' x x', mQ A A' -> Qs x x' -> rrel Qs (snd (mvs1 i) A x) (snd (mvs2 i) A' x')).
Lemma rel_fused fma1 fma2 : (forall x y z a b c, Q x a -> Q y b -> Q z c -> Q (fma1 x y z) (fma2 a b c)) ->
  forall os, rel_products (fun i => fused_pair O1 fma1 (os i)) (fun i => fused_pair O2 fma2 (os i)).
Proof. intros HM os i. split; apply rel_mulv_fby; auto. Qed.

Context (mvs1 : nat -> @products2 F1) (mvs2 : nat -> @products2 F2).
Hypothesis L1s : likes O1 mvs1.
Hypothesis L2s : likes O2 mvs2.
Hypothesis MVS : rel_products mvs1 mvs2.
Theorem rel_along_with ts1 ts2 : Forall2 (tapes_related Q) ts1 ts2 -> forall i n x1 x2 dx1 dx2, fits ts1 n -> fits ts2 n ->
  length x1 = n -> length dx1 = n -> Qs x1 x2 -> Qs dx1 dx2 ->
  (forall d1 d2, along_switching O1 red1 ts1 x1 dx1 = Ok d1 -> along_switching O2 red2 ts2 x2 dx2 = Ok d2 ->
    Forall2 (same_sign O1 O2) d1 d2) ->
  rrel (g_rel Q) (along_with O1 red1 mvs1 i ts1 x1 dx1) (along_with O2 red2 mvs2 i ts2 x2 dx2).
Proof.
  induction 1 as [|t1 t2 ts1 ts2 HT HTs IH]; intros i n x1 x2 dx1 dx2 F1' F2' L1 Ld1 HX HD HS; cbn [along_with].
  - cbn. rewrite (F2_len _ _ _ HX). constructor; cbn; auto; [apply rel_m_id; auto|eapply rel_zeros; eauto].
  - destruct F1' as (W1 & N1 & F1'), F2' as (W2 & N2 & F2'). cbn [along_switching] in HS.
    pose proof (F2_len _ _ _ HX) as L2. pose proof (F2_len _ _ _ HD) as Ld2.
    destruct (stage_total O1 t1 x1 dx1 W1) as (a & y & d & Ea & Ey & Ed & Wa & Na & Da & Ly & Ldy); try congruence.
    destruct (stage_total O2 t2 x2 dx2 W2) as (b & y' & d' & Eb & Ey' & Ed' & Wb & Nb & Db & Ly' & Ldy'); try congruence.
    pose proof (rel_tape_zero _ _ _ H _ _ _ _ HT HX) as X. rewrite Ea, Eb in X. cbn in X.
    pose proof (rel_tape_y _ _ _ X) as Y. rewrite Ey, Ey' in Y. cbn in Y.
    pose proof (rel_tape_forward _ _ _ H _ _ _ _ X HD) as Z. rewrite Ed, Ed' in Z. cbn in Z.
    rewrite Ea, Eb in *. cbn [bind] in *. rewrite Ey, Ey' in *. cbn [bind] in *. rewrite Ed, Ed' in *. cbn [bind] in *.
    destruct (switching_total O1 red1 R1 a dx1 Wa) as (s & Es); [congruence|].
    destruct (switching_total O2 red2 R2 b dx2 Wb) as (s' & Es'); [congruence|].
    pose proof (rel_switching_values _ _ _ _ _ H HE1 HE2 red1 red2 R1 R2 _ _ _ _ X HD) as S. rewrite Es, Es' in *. cbn [rrel bind] in *.
    apply F2_len in S.
    destruct (along_total O1 red1 R1 ts1 _ y d F1' Ly Ldy) as (g0 & r & dd & Eg0 & Er & _ & Wg0 & Cg0 & Lg0 & _).
    destruct (along_total O2 red2 R2 ts2 _ y' d' F2' Ly' Ldy') as (g0' & r' & dd' & Eg0' & Er' & _ & Wg0' & Cg0' & Lg0' & _).
    rewrite Er, Er' in HS. cbn [bind] in HS. specialize (HS _ _ eq_refl eq_refl). destruct (F2_app_inv _ _ _ _ _ S HS) as [S1 S2].
    destruct (along_with_same O1 red1 R1 mvs1 ts1 L1s (i + 1) _ y d F1' Ly Ldy) as (g & h & Eg & Eh & M1 & M2 & M3).
    destruct (along_with_same O2 red2 R2 mvs2 ts2 L2s (i + 1) _ y' d' F2' Ly' Ldy') as (g' & h' & Eg' & Eh' & M1' & M2' & M3').
    assert (h = g0) as -> by congruence. assert (h' = g0') as -> by congruence.
    assert (num_deps t2 = num_deps t1) as ND by (unfold num_deps; now rewrite (tr_deps _ _ _ HT)).
    rewrite ND in F2'.
    pose proof (IH (i + 1) _ y y' d d' F1' F2' Ly Ldy Y Z) as G. rewrite Eg, Eg' in *. cbn [bind rrel] in *.
    destruct (MVS i) as [MV MW]. apply (rel_gj_with O1 O2 Q E1 E2 H HE1 HE2 C red1 red2 R1 R2 _ _ _ _ MV MW a b dx1 dx2 [0%N] (Some g) (Some g')); auto.
    + apply G. intros d1 d2 U V. congruence.
    + cbn. rewrite M1. exact Wg0.
    + cbn. rewrite M1'. exact Wg0'.
    + cbn. rewrite M1. split; congruence.
    + intros d1 d2 U V. congruence.
Qed.
End Two.

(** ** Rounding errors, whatever is fused *)
Local Open Scope R_scope.
Section Main.
Context (T : libm) (HT : libm_accurate T).
Context (red : list (list (nat * list spec_float)) -> list (nat * list spec_float))
  (redb : list (list (nat * list ball)) -> list (nat * list ball)) (redr : list (list (nat * list R)) -> list (nat * list R)).
Context (fma : spec_float -> spec_float -> spec_float -> spec_float) (HF : rounds_once fma).
Hypothesis HR : rayon red.
Hypothesis HRb : rayon redb.
Hypothesis HRr : rayon redr.

Theorem abs_normal_fby_error o (t : tape spec_float) x t64 tb tr : fvalid2 o -> wf_tape t -> length x = num_indeps t -> replays T t x t64 tb tr ->
  exists N Nb Nr,
    abs_normal_fby (f64ops T) fma red o t64 = Ok N /\ abs_normal_fby Bops b_fma redb o tb = Ok Nb /\ abs_normal_tape Rops redr tr = Ok Nr /\
    bounded_mat (f_zmat N) (f_zmat Nb) (f_zmat Nr) /\ bounded_mat (f_lmat N) (f_lmat Nb) (f_lmat Nr) /\
    bounded_mat (f_jmat N) (f_jmat Nb) (f_jmat Nr) /\ bounded_mat (f_ymat N) (f_ymat Nb) (f_ymat Nr) /\
    bounded (f_a N) (f_a Nb) (f_a Nr) /\ bounded (f_b N) (f_b Nb) (f_b Nr).
Proof.
  intros HV W L HP. destruct (three_wf T HT t x t64 tb tr W L HP) as ([C1 C2] & W64 & Wb & Wr).
  destruct (abs_normal_total Rops redr HRr tr Wr) as (Nr & ER & _).
  rewrite <- (abs_normal_fexact redr o) in ER by auto.
  pose proof (rel_abs_normal_with _ _ _ (inside_related T HT) red redb HR HRb _ _ _ _
    (rel_mulv_fby _ _ _ (inside_related T HT) _ _ (inside_fma fma HF) (fst o)) (rel_mulv_fby _ _ _ (inside_related T HT) _ _ (inside_fma fma HF) (snd o)) _ _ C1) as X.
  pose proof (rel_abs_normal_with _ _ _ about_related redb redr HRb HRr _ _ _ _
    (rel_mulv_fby _ _ _ about_related _ _ about_fma (fst o)) (rel_mulv_fby _ _ _ about_related _ _ about_fma (snd o)) _ _ C2) as Y.
  fold (abs_normal_fby (f64ops T) fma red o t64) (abs_normal_fby Bops b_fma redb o tb) in X.
  fold (abs_normal_fby Bops b_fma redb o tb) (abs_normal_fby Rops r_fma redr o tr) in Y.
  rewrite ER in Y. apply rrel_ok in Y as (Nb & EB & [y1 y2 y3 y4 y5 y6]). rewrite EB in X. apply rrel_ok in X as (N & EN & [x1 x2 x3 x4 x5 x6]).
  rewrite (abs_normal_fexact redr o) in ER by auto.
  exists N, Nb, Nr. do 3 (split; [auto|]). do 4 (split; [apply bounded_mat_of; auto|]). split; apply bounded_of; auto.
Qed.

Theorem gj_fby_error o (t : tape spec_float) x t64 tb tr : fvalid2 o -> wf_tape t -> length x = num_indeps t -> replays T t x t64 tb tr ->
  forall dx, length dx = num_indeps t ->
  forall bits db, switching_values Bops redb tb (map point dx) = Ok db -> Forall decided db ->
  exists G Gb Gr,
    gj_fby (f64ops T) fma red o t64 dx bits None = Ok G /\
    gj_fby Bops b_fma redb o tb (map point dx) bits None = Ok Gb /\
    generalized_jacobian_tape Rops redr tr (map real_of dx) bits None = Ok Gr /\
    g_mult G = g_mult Gr /\ bounded_mat (g_hom G) (g_hom Gb) (g_hom Gr) /\ bounded (g_inh G) (g_inh Gb) (g_inh Gr).
Proof.
  intros HV W L HP dx Ldx bits db EB DB. destruct (three_wf T HT t x t64 tb tr W L HP) as ([C1 C2] & W64 & Wb & Wr).
  pose proof (three_ops T HT t x t64 tb tr W L HP) as (I1 & D1 & O1 & I2 & D2 & O2 & I3 & D3 & O3).
  destruct (switching_rel T HT red redb redr HR HRb HRr t x t64 tb tr W L HP dx Ldx) as (dz & db' & dr & EZ & EB' & ER & HZ & HB).
  assert (db' = db) as -> by congruence.
  destruct (gj_with_total Bops redb HRb _ _ tb (map point dx) bits None (fby_like Bops b_fma (fst o)) (fby_like Bops b_fma (snd o)) Wb I) as (Gb & EG); [|exact I|].
  { rewrite map_length. unfold num_indeps in *. congruence. }
  pose proof (rel_gj_with _ _ _ _ _ (inside_related T HT) (f64_eq_like T) ball_eq_like inside_compat red redb HR HRb _ _ _ _
    (rel_mulv_fby _ _ _ (inside_related T HT) _ _ (inside_fma fma HF) (fst o)) (rel_mulv_fby _ _ _ (inside_related T HT) _ _ (inside_fma fma HF) (snd o)) t64 tb dx (map point dx) bits None None
    C1 W64 Wb (inside_points dx) I I I I) as X.
  pose proof (rel_gj_with _ _ _ _ _ about_related ball_eq_like R_eq_like about_compat redb redr HRb HRr _ _ _ _
    (rel_mulv_fby _ _ _ about_related _ _ about_fma (fst o)) (rel_mulv_fby _ _ _ about_related _ _ about_fma (snd o)) tb tr (map point dx) (map real_of dx) bits None None
    C2 Wb Wr (about_points dx) I I I I) as Y.
  fold (gj_fby (f64ops T) fma red o t64 dx bits None) (gj_fby Bops b_fma redb o tb (map point dx) bits None) in X.
  fold (gj_fby Bops b_fma redb o tb (map point dx) bits None) (gj_fby Rops r_fma redr o tr (map real_of dx) bits None) in Y.
  rewrite (gj_fexact redr o) in Y by auto.
  change (gj_fby Bops b_fma redb o tb (map point dx) bits None = Ok Gb) in EG.
  rewrite EG in X, Y. lapply X; [clear X; intros X|]. lapply Y; [clear Y; intros Y|].
  - apply rrel_ok in X as (G & E64 & [x1 x2 x3]). apply rrel_ok' in Y as (Gr & Er & [y1 y2 y3]).
    exists G, Gb, Gr. do 3 (split; [auto|]). split; [congruence|]. split; [apply bounded_mat_of; auto|apply bounded_of; auto].
  - intros d1 d2 E1 E2. replace d1 with db by congruence. replace d2 with dr by congruence.
    eapply F2_sign'; [exact about_sign|exact HB|exact DB].
  - intros d1 d2 E1 E2. replace d1 with dz by congruence. replace d2 with db by congruence.
    eapply F2_sign; [apply inside_sign|exact HZ|exact DB].
Qed.

Theorem chain_fby_error os est c x dx k w ts : (forall i, fvalid2 (os i)) ->
  accurate est (Z.of_nat (chain_len c) + 1) -> (Z.of_nat (chain_len c) + 1 <= 2 ^ 32)%Z -> (2 <= k)%nat ->
  length dx = length x -> recorded (f64ops T) (fn_iter c) x dx ts ->
  exists db, along_switching Bops redb (map (map_tape point) ts) (map point x) (map point dx) = Ok db /\
    (Forall decided db -> exists G w' Gb Gr,
      generalized_jacobian_chain_fby (f64ops T) fma red os est c x dx (Some k) w = Ok (G, w') /\
      along_fby Bops b_fma redb os 0 (map (map_tape point) ts) (map point x) (map point dx) = Ok Gb /\
      along Rops redr (map (map_tape real_of) ts) (map real_of x) (map real_of dx) = Ok Gr /\
      g_mult G = g_mult Gr /\ bounded_mat (g_hom G) (g_hom Gb) (g_hom Gr) /\ bounded (g_inh G) (g_inh Gb) (g_inh Gr)).
Proof.
  intros HV A B Hk Ld HC. pose proof (recorded_fits _ _ _ _ _ HC Ld) as HFt. set (n := length x) in *.
  destruct (chain_is_along_with (f64ops T) red HR _ est c x dx k w ts (fused_likes (f64ops T) fma os) A B Hk Ld HC) as (G & w' & EG & EA).
  destruct (close_tapes ts) as [C1 C2].
  pose proof (fits_map point ts n HFt) as Fb. pose proof (fits_map real_of ts n HFt) as Fr.
  assert (length (map point x) = n /\ length (map point dx) = n) as [Lbx Lbd] by (rewrite !map_length; auto).
  destruct (along_total Bops redb HRb _ n (map point x) (map point dx) Fb Lbx Lbd) as (_ & db & _ & _ & Eb & _).
  destruct (along_with_same Bops redb HRb _ _ (fused_likes Bops b_fma os) 0 n (map point x) (map point dx) Fb Lbx Lbd) as (Gb & _ & EGb & _).
  pose proof (rel_along_switching _ _ _ _ _ (inside_related T HT) (f64_eq_like T) ball_eq_like red redb HR HRb _ _ C1
    _ _ _ _ (inside_points x) (inside_points dx)) as X.
  pose proof (rel_along_switching _ _ _ _ _ about_related ball_eq_like R_eq_like redb redr HRb HRr _ _ C2
    _ _ _ _ (about_points x) (about_points dx)) as Y.
  rewrite Eb in X, Y. apply rrel_ok in X as (dz & Ez & HZ). apply rrel_ok' in Y as (dr & Er & HB).
  exists db. split; [auto|]. intros DB.
  pose proof (rel_along_with _ _ _ _ _ (inside_related T HT) (f64_eq_like T) ball_eq_like inside_compat red redb HR HRb
    _ _ (fused_likes (f64ops T) fma os) (fused_likes Bops b_fma os) (rel_fused _ _ _ (inside_related T HT) _ _ (inside_fma fma HF) os) _ _ C1
    0%nat n _ _ _ _ HFt Fb eq_refl Ld (inside_points x) (inside_points dx)) as X.
  pose proof (rel_along_with _ _ _ _ _ about_related ball_eq_like R_eq_like about_compat redb redr HRb HRr
    _ _ (fused_likes Bops b_fma os) (fused_likes Rops r_fma os) (rel_fused _ _ _ about_related _ _ about_fma os) _ _ C2
    0%nat n _ _ _ _ Fb Fr Lbx Lbd (about_points x) (about_points dx)) as Y.
  match type of Y with _ -> rrel _ _ ?t => change t with (along_fby Rops r_fma redr os 0 (map (map_tape real_of) ts) (map real_of x) (map real_of dx)) in Y end. rewrite along_fexact in Y by auto. rewrite EGb in X, Y. rewrite EA in X.
  lapply X; [clear X; intros X|]. lapply Y; [clear Y; intros Y|].
  - destruct X as [x1 x2 x3]. apply rrel_ok' in Y as (Gr & EGr & [y1 y2 y3]).
    exists G, w', Gb, Gr. do 3 (split; [auto|]). split; [congruence|]. split; [apply bounded_mat_of; auto|apply bounded_of; auto].
  - intros d1 d2 E1 E2. replace d1 with db by congruence. replace d2 with dr by congruence.
    eapply F2_sign'; [exact about_sign|exact HB|exact DB].
  - intros d1 d2 E1 E2. replace d1 with dz by congruence. replace d2 with db by congruence.
    eapply F2_sign; [apply inside_sign|exact HZ|exact DB].
Qed.
End Main.
