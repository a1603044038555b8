(** The chain driver in two arithmetics, and its rounding errors. *)
From Coq Require Import Reals Lra Lia ZArith NArith Bool List SpecFloat.
From Verif Require Import Base Float FloatInst Operation Tape AContext Methods Function Spec Param Instances TapeFacts RealInst F64Facts F64Ops FopsRel BallSpec BallFacts BallMain
  FunctionFacts JacobianFacts CheckSpec Checkpoint CheckMain
  DerivSpec LinearFacts Matrix MatrixFacts AbsNormal AbsNormalFacts AnfSpec RVec AnfFacts AnfFacts2 GenJac GenSpec GenFacts DriverSpec DriverPanics Shape RecordFacts ReplayFacts Replay2 EstF64
  GenBallSpec RelDrivers RelGen GenBallFacts GenBallMain SwitchChain ChainBallSpec.
Import ListNotations.
Local Open Scope nat_scope.

(** ** In any arithmetic *)
Section Any.
Context {F : Type} (Fo : Fops F) (red : list (list (nat * list F)) -> list (nat * list F)) (HR : rayon red).

Lemma switching_total (t : tape F) dx : wf_tape t -> length dx = num_indeps t ->
  exists dz, switching_values Fo red t dx = Ok dz.
Proof.
  intros W L. destruct (gj_tape_total Fo red HR t dx [] None W I L I) as (G & E & _).
  unfold generalized_jacobian_tape in E. unfold switching_values.
  apply bind_ok in E as (u & _ & E). apply bind_ok in E as (a & -> & E). cbn [bind].
  apply bind_ok in E as (z & -> & E). cbn [bind].
  apply bind_ok in E as (lz & -> & E). cbn [bind].
  apply bind_ok in E as (b & -> & E). cbn [bind].
  apply bind_ok in E as (yz & _ & E).
  apply bind_ok in E as (zd & -> & E). cbn [bind].
  apply bind_ok in E as (d & -> & E). cbn [bind].
  apply bind_ok in E as (dz & -> & E). eauto.
Qed.

Lemma stage_total (t : tape F) x dx : wf_tape t -> length x = num_indeps t -> length dx = num_indeps t ->
  exists t1 y dy, tape_zero_order Fo t x = Ok t1 /\ tape_y t1 = Ok y /\ tape_forward Fo t1 dx = Ok dy /\
    wf_tape t1 /\ num_indeps t1 = num_indeps t /\ num_deps t1 = num_deps t /\ length y = num_deps t /\ length dy = num_deps t.
Proof.
  intros W Lx Ld. destruct (zero_sweep_values Fo t x W Lx) as (t1 & E & A & B & C & V).
  pose proof (zero_order_wf Fo _ _ _ W E) as W1.
  destruct (gather_ok (t_deps t1) (t_vals t1)) as (y & Ey); [apply (wf_dep_range _ W1)|].
  destruct (forward_tangents Fo t1 dx W1) as (da & dy & _ & Ed & Eg); [unfold num_indeps in *; congruence|].
  exists t1, y, dy. do 4 (split; [auto|]). unfold num_indeps, num_deps in *.
  apply gather_length in Ey, Eg. rewrite A, B in *. auto.
Qed.

Lemma along_total ts : forall n x dx, fits ts n -> length x = n -> length dx = n ->
  exists G s d, along Fo red ts x dx = Ok G /\ along_switching Fo red ts x dx = Ok s /\ along_forward Fo ts x dx = Ok d /\
    wf_mat (g_hom G) /\ m_cols (g_hom G) = n /\ length (g_inh G) = m_rows (g_hom G) /\ length d = m_rows (g_hom G).
Proof.
  induction ts as [|t ts IH]; intros n x dx HF Lx Ld; cbn [along along_switching along_forward].
  - exists (mkG (m_id Fo (length x)) (repeat (f_zero Fo) (length x)) 0), [], dx. do 3 (split; [reflexivity|]).
    split; [apply m_tab_wf|]. cbn. rewrite repeat_length. repeat split; congruence.
  - destruct HF as (W & <- & HF).
    destruct (stage_total t x dx W Lx Ld) as (t1 & y & dy & E1 & E2 & E3 & W1 & NI & ND & Ly & Ldy).
    rewrite E1. cbn [bind]. rewrite E2. cbn [bind]. rewrite E3. cbn [bind].
    destruct (IH _ y dy HF Ly Ldy) as (g & s & d & Eg & Es & Ed & Wg & Cg & Lg & Lgd).
    destruct (switching_total t1 dx W1) as (z & Ez); [congruence|].
    destruct (gj_tape_total Fo red HR t1 dx [0%N] (Some g) W1 Wg) as (G & EG & WG & RG & CG & LG & _);
      [congruence|cbn; split; congruence|].
    exists G, (z ++ s), d. rewrite Eg, Es, Ed, Ez. cbn [bind]. rewrite EG. do 3 (split; [reflexivity|]).
    cbn [rows_out] in *. split; [auto|]. repeat split; congruence.
Qed.

(** ** The chain driver on recorded tapes *)
Lemma recorded_fits fs x dx ts : recorded Fo fs x dx ts -> length dx = length x -> fits ts (length x).
Proof.
  induction 1 as [|f fs x dx w t w' y dy ts Hn HT HC Hy Hd HR' IH]; intros L; [exact I|].
  destruct (fn_tape_wf Fo _ _ _ _ _ HT) as ([W _] & _). destruct (fn_tape_fresh Fo _ _ _ _ _ HT) as (_ & (y' & _ & Hy' & Hm) & Hi & _).
  cbn. split; [auto|]. split; [auto|]. assert (y' = y) as -> by congruence. rewrite Hm. apply IH.
  apply tape_forward_length in Hd. congruence.
Qed.

Lemma skipn_nth {A} (l : list A) i a : nth_error l i = Some a -> skipn i l = a :: skipn (i + 1) l.
Proof. rewrite Nat.add_1_r. revert i. induction l as [|b l IH]; intros [|i] H; cbn in *; try discriminate; [congruence|auto]. Qed.

Lemma stage_step c i f x dx w t w' y dy : nth_error (fn_iter c) i = Some f -> length dx = length x ->
  fn_tape Fo f x w = Ok (t, w') -> const_tangents_zero Fo f x dx -> tape_y t = Ok y -> tape_forward Fo t dx = Ok dy ->
  p_fw Fo c (i, x, dx) = Ok ((i + 1)%nat, y, dy).
Proof.
  intros Ef L HT HZ Hy Hd. unfold p_fw, chain_nth. rewrite Ef. cbn [unwrap bind].
  destruct (forward_is_tapeless Fo f x w t w' dx HT L HZ) as (outs & Eo & Ed').
  destruct (fn_tape_fresh Fo _ _ _ _ _ HT) as (_ & (y' & Hv & Hy' & Hm) & Hi & EZ).
  assert (y' = y) as -> by congruence.
  pose proof (Eo world0) as Eo0. unfold pairs in Eo0.
  assert (map af_v outs = y) as Ev.
  { rewrite eval_detached in Eo0. pose proof (d_eval_values Fo f (combine x dx)) as Edv. rewrite map_fst_combine in Edv by auto.
    destruct (d_eval Fo f (combine x dx)) as [yy|]; [|discriminate Eo0]. cbn in Eo0. injection Eo0 as <-. cbn in Edv.
    rewrite map_map. cbn. change (fun x0 : F * F => fst x0) with (@fst F F). congruence. }
  rewrite Eo0. cbn [bind fst]. assert (map af_dv outs = dy) as -> by congruence. rewrite Ev. reflexivity.
Qed.

Lemma fold_along c : forall n i x dx ts, (i + n = chain_len c)%nat -> length dx = length x ->
  recorded Fo (skipn i (fn_iter c)) x dx ts ->
  reverse_fold (p_fw Fo c) (p_rv Fo red c) (p_id Fo) n (i, x, dx) = along Fo red ts x dx.
Proof.
  unfold chain_len. induction n as [|n IH]; intros i x dx ts E L HC.
  - rewrite skipn_all2 in HC by lia. inversion HC; subst. reflexivity.
  - destruct (nth_error (fn_iter c) i) as [f|] eqn:Ef; [|apply nth_error_None in Ef; lia].
    rewrite (skipn_nth _ _ _ Ef) in HC. inversion HC as [|f0 fs x0 dx0 w t w' y dy ts' Hn HT HZ Hy Hd HR']; subst.
    cbn [reverse_fold along]. rewrite (stage_step c i f x dx w t w' y dy Ef L HT HZ Hy Hd). cbn [bind].
    destruct (fn_tape_fresh Fo _ _ _ _ _ HT) as (_ & (y' & _ & Hy' & Hm) & _ & EZ). rewrite EZ. cbn [bind]. rewrite Hy. cbn [bind]. rewrite Hd. cbn [bind].
    rewrite (IH (i + 1)%nat y dy ts') by (try lia; auto; apply tape_forward_length in Hd; congruence).
    destruct (along Fo red ts' y dy) as [g|p]; cbn [bind]; [|reflexivity].
    unfold p_rv, chain_nth. rewrite Ef. cbn [unwrap bind]. unfold generalized_jacobian, mbind, mlift. rewrite Hn.
    rewrite Nat.eqb_refl. cbn [assert]. pose proof (fn_tape_world Fo f x w world0) as HW. rewrite HT in HW. destruct HW as (w2 & ->).
    destruct (generalized_jacobian_tape Fo red t dx [0%N] (Some g)); reflexivity.
Qed.

Theorem chain_is_along est c x dx k w ts :
  accurate est (Z.of_nat (chain_len c) + 1) -> (Z.of_nat (chain_len c) + 1 <= 2 ^ 32)%Z -> 2 <= k ->
  length dx = length x -> recorded Fo (fn_iter c) x dx ts ->
  exists G w', generalized_jacobian_chain Fo red est c x dx (Some k) w = Ok (G, w') /\ along Fo red ts x dx = Ok G.
Proof.
  intros A B Hk L HC. unfold generalized_jacobian_chain.
  pose proof (reverse_sequence_spec est _ _ _ _ _ _ _ (p_acts_fw Fo c) (p_acts_rv Fo red c) (p_acts_id Fo) (chain_len c) k A B Hk
     (0%nat, x, dx) w I) as H. cbn beta in H.
  rewrite (fold_along c (chain_len c) 0 x dx ts eq_refl L HC) in H.
  destruct (along_total ts (length x) x dx (recorded_fits _ _ _ _ HC L) eq_refl L) as (G & _ & _ & E & _).
  rewrite E in H. destruct H as (w' & -> & _). eauto.
Qed.
End Any.

(** ** Two arithmetics *)
Lemma F2_app_inv {A B} (P : A -> B -> Prop) a a' : forall b b', length a = length b -> Forall2 P (a ++ a') (b ++ b') ->
  Forall2 P a b /\ Forall2 P a' b'.
Proof.
  induction a as [|h a IH]; intros [|h' b] b' L HF; try discriminate L; cbn in *; [auto|].
  inversion HF; subst. destruct (IH b b') as [X Y]; auto.
Qed.
Lemma F2_app {A B} (P : A -> B -> Prop) a a' b b' : Forall2 P a b -> Forall2 P a' b' -> Forall2 P (a ++ a') (b ++ b').
Proof. induction 1; cbn; auto. Qed.

Section Two.
Context {F1 F2 : Type} (O1 : Fops F1) (O2 : Fops F2) (Q : F1 -> F2 -> Prop) (E1 : F1 -> F1 -> Prop) (E2 : F2 -> F2 -> Prop).
Notation Qs := (Forall2 Q).
Hypothesis H : ops_related O1 O2 Q.
Hypothesis HE1 : eq_like O1 E1.
Hypothesis HE2 : eq_like O2 E2.
Hypothesis C : forall a a' b b', E1 a a' -> Q a' b' -> E2 b' b -> Q a b.
Context (red1 : list (list (nat * list F1)) -> list (nat * list F1)) (red2 : list (list (nat * list F2)) -> list (nat * list F2)).
Hypothesis R1 : rayon red1.
Hypothesis R2 : rayon red2.

Lemma rel_along_switching ts1 ts2 : Forall2 (tapes_related Q) ts1 ts2 -> forall x1 x2 dx1 dx2, Qs x1 x2 -> Qs dx1 dx2 ->
  rrel Qs (along_switching O1 red1 ts1 x1 dx1) (along_switching O2 red2 ts2 x2 dx2).
Proof.
  induction 1 as [|t1 t2 ts1 ts2 HT HTs IH]; intros x1 x2 dx1 dx2 HX HD; cbn [along_switching]; [constructor|].
  eapply rrel_bind; [apply (rel_tape_zero _ _ _ H); eauto|]. intros a b HA.
  eapply rrel_bind; [apply rel_tape_y; eauto|]. intros y y' HY.
  eapply rrel_bind; [apply (rel_tape_forward _ _ _ H); eauto|]. intros d d' HD'.
  eapply rrel_bind; [eapply (rel_switching_values _ _ _ _ _ H HE1 HE2 red1 red2 R1 R2); eauto|]. intros s s' HS.
  eapply rrel_bind; [apply IH; eauto|]. intros r r' HR'. cbn. apply F2_app; auto.
Qed.

Theorem rel_along ts1 ts2 : Forall2 (tapes_related Q) ts1 ts2 -> forall n x1 x2 dx1 dx2, fits ts1 n -> fits ts2 n ->
  length x1 = n -> length dx1 = n -> Qs x1 x2 -> Qs dx1 dx2 ->
  (forall d1 d2, along_switching O1 red1 ts1 x1 dx1 = Ok d1 -> along_switching O2 red2 ts2 x2 dx2 = Ok d2 ->
    Forall2 (same_sign O1 O2) d1 d2) ->
  rrel (g_rel Q) (along O1 red1 ts1 x1 dx1) (along O2 red2 ts2 x2 dx2).
Proof.
  induction 1 as [|t1 t2 ts1 ts2 HT HTs IH]; intros n x1 x2 dx1 dx2 F1' F2' L1 Ld1 HX HD HS; cbn [along].
  - cbn. rewrite (F2_len _ _ _ HX). constructor; cbn; auto; [apply rel_m_id; auto|eapply rel_zeros; eauto].
  - destruct F1' as (W1 & N1 & F1'), F2' as (W2 & N2 & F2'). cbn [along_switching] in HS.
    pose proof (F2_len _ _ _ HX) as L2. pose proof (F2_len _ _ _ HD) as Ld2.
    destruct (stage_total O1 t1 x1 dx1 W1) as (a & y & d & Ea & Ey & Ed & Wa & Na & Da & Ly & Ldy); try congruence.
    destruct (stage_total O2 t2 x2 dx2 W2) as (b & y' & d' & Eb & Ey' & Ed' & Wb & Nb & Db & Ly' & Ldy'); try congruence.
    pose proof (rel_tape_zero _ _ _ H _ _ _ _ HT HX) as X. rewrite Ea, Eb in X. cbn in X.
    pose proof (rel_tape_y _ _ _ X) as Y. rewrite Ey, Ey' in Y. cbn in Y.
    pose proof (rel_tape_forward _ _ _ H _ _ _ _ X HD) as Z. rewrite Ed, Ed' in Z. cbn in Z.
    rewrite Ea, Eb in *. cbn [bind] in *. rewrite Ey, Ey' in *. cbn [bind] in *. rewrite Ed, Ed' in *. cbn [bind] in *.
    destruct (switching_total O1 red1 R1 a dx1 Wa) as (s & Es); [congruence|].
    destruct (switching_total O2 red2 R2 b dx2 Wb) as (s' & Es'); [congruence|].
    pose proof (rel_switching_values _ _ _ _ _ H HE1 HE2 red1 red2 R1 R2 _ _ _ _ X HD) as S. rewrite Es, Es' in *. cbn [rrel bind] in *.
    apply F2_len in S.
    destruct (along_total O1 red1 R1 ts1 _ y d F1' Ly Ldy) as (g & r & dd & Eg & Er & _ & Wg & Cg & Lg & _).
    destruct (along_total O2 red2 R2 ts2 _ y' d' F2' Ly' Ldy') as (g' & r' & dd' & Eg' & Er' & _ & Wg' & Cg' & Lg' & _).
    rewrite Er, Er' in HS. cbn [bind] in HS. specialize (HS _ _ eq_refl eq_refl). destruct (F2_app_inv _ _ _ _ _ S HS) as [S1 S2].
    assert (num_deps t2 = num_deps t1) as ND by (unfold num_deps; now rewrite (tr_deps _ _ _ HT)).
    rewrite ND in F2'.
    pose proof (IH _ y y' d d' F1' F2' Ly Ldy Y Z) as G. rewrite Eg, Eg' in *. cbn [bind rrel] in *.
    apply (rel_gj _ _ _ _ _ H HE1 HE2 C red1 red2 R1 R2 a b dx1 dx2 [0%N] (Some g) (Some g')); auto.
    + apply G. intros d1 d2 U V. congruence.
    + cbn. split; congruence.
    + intros d1 d2 U V. congruence.
Qed.
End Two.

(** ** What exact arithmetic computes *)
Local Open Scope R_scope.
Lemma switching_unique (t : tape R) N dx z z' : wf_tape t -> anf_of t N -> length dx = num_indeps t ->
  switching N dx z -> switching N dx z' -> z = z'.
Proof.
  intros W HN Ld [L1 E1] [L2 E2]. pose proof (anf_lower t N W HN) as Low.
  pose proof HN as [(a & zz & EN & EZ & Rz & Rl & Rj & Ry & Ea & Eb)].
  destruct (subtapes_ok t a W EN) as (HS & N1 & N2 & N3 & N4 & N5 & N6 & N7 & N8).
  assert (shape (f_zmat N) (num_abs t) (num_indeps t)) as SZ by (rewrite <- N1, <- N2; apply Rz).
  assert (shape (f_lmat N) (num_abs t) (num_abs t)) as SL by (rewrite <- N3 at 2; rewrite <- N4 at 1; apply Rl).
  destruct (an_z_ok t a W EN) as (z2 & EZ2 & Lz). assert (z2 = zz) as -> by congruence.
  assert (length (f_a N) = num_abs t) as Lfa.
  { rewrite Ea, vsub_len; auto. rewrite (mulv_len _ _ _ _ SL). auto. }
  apply (switching_unique_gen (f_lmat N) (num_abs t) (vadd (f_a N) (mulv (f_zmat N) dx))); auto; try congruence.
  rewrite vadd_len; rewrite ?(mulv_len _ _ _ _ SZ); auto.
Qed.
Theorem along_piece red ts : rayon red -> Forall (fun t => NoDup (t_deps t) /\ abs_once t) ts ->
  forall n x dx G s, fits ts n -> length x = n -> length dx = n ->
  along Rops red ts x dx = Ok G -> along_switching Rops red ts x dx = Ok s ->
  g_mult G = zeros s /\
  forall v sv dv, length v = n -> along_switching Rops red ts x v = Ok sv -> Forall2 same_side s sv ->
    along_forward Rops ts x v = Ok dv -> vadd (mulv (g_hom G) v) (g_inh G) = dv.
Proof.
  intros HR. induction ts as [|t ts IH]; intros HO n x dx G s HF Lx Ld EG Es.
  - cbn in EG, Es. injection EG as <-. injection Es as <-. split; [reflexivity|].
    intros v sv dv Lv _ _ Ev. cbn in Ev. injection Ev as <-. cbn [g_hom g_inh]. rewrite mulv_id by congruence.
    apply nth_ext0; [rewrite vadd_len; rewrite ?repeat_length; congruence|]. intros i Hi.
    rewrite nth_vadd by (rewrite repeat_length; congruence). rewrite nth_repeat. change (f_zero Rops) with 0. ring.
  - destruct HF as (W & <- & HF). inversion HO as [|t0 ts0 [ND AO] HO']; subst.
    destruct (stage_total Rops t x dx W Lx Ld) as (t1 & y & dy & E1 & E2 & E3 & W1 & NI & NDp & Ly & Ldy).
    destruct (zero_order_same Rops _ _ _ E1) as (A1 & A2 & A3 & _).
    cbn [along along_switching along_forward] in *. rewrite E1 in *. cbn [bind] in *. rewrite E2 in *. cbn [bind] in *.
    rewrite E3 in *. cbn [bind] in *.
    destruct (along_total Rops red HR ts _ y dy HF Ly Ldy) as (g & r & d & Eg & Er & _ & Wg & Cg & Lg & _).
    rewrite Eg in EG. rewrite Er in Es. cbn [bind] in EG, Es.
    destruct (anf_exists t1 W1) as [N HN].
    destruct (gj_tape_correct red t1 N dx [0%N] (Some g) HR W1) as (G' & dz & sg & EG' & SW & HS & HM & SG & LG & HG).
    + rewrite A2. exact ND.
    + intros args EA. apply (abs_args_nodup t1 args); [|exact EA]. unfold abs_once in *. now rewrite A3.
    + exact HN.
    + congruence.
    + cbn. split; [|exact Lg]. split; [exact Wg|]. split; congruence.
    + assert (G' = G) as -> by congruence.
      destruct (switching_values_exact red t1 N dx HR W1 HN) as (dz' & Ez & SW'); [congruence|].
      assert (dz' = dz) as -> by (eapply switching_unique; eauto; congruence).
      rewrite Ez in Es. cbn [bind] in Es. injection Es as <-.
      destruct (IH HO' _ y dy g r HF Ly Ldy Eg Er) as (Mg & Pg).
      split; [rewrite HM, zeros_app; cbn [next_mult]; rewrite Mg; reflexivity|]. intros v sv dv Lv Ev SS Efw.
      destruct (forward_tangents Rops t1 v W1) as (_ & dy' & _ & E3' & _); [congruence|].
      rewrite E3' in *. cbn [bind] in *.
      destruct (switching_values_exact red t1 N v HR W1 HN) as (zv & Ezv & SWv); [congruence|]. rewrite Ezv in Ev. cbn [bind] in Ev.
      apply bind_ok in Ev as (rv & Erv & Ev). injection Ev as <-.
      assert (length dz = length zv) as Lz by (destruct SW as [-> _], SWv as [-> _]; reflexivity).
      destruct (F2_app_inv _ _ _ _ _ Lz SS) as [S1 S2].
      rewrite (HG v dy'); [|congruence| |exact E3'].
      * cbn [next_map]. apply (Pg dy' rv dv); auto. apply tape_forward_length in E3'. congruence.
      * exists zv. split; [exact SWv|]. intros i Hi. rewrite <- Lz in Hi. destruct HS as [_ HS]. destruct (HS i Hi) as (P1 & P2 & P3).
        rewrite zero_bits in P3.
        destruct (nth_error dz i) as [a|] eqn:Ha; [|apply nth_error_None in Ha; lia]. destruct (F2_nth' _ _ _ S1 i a Ha) as (b & Hb & [Q1 Q2]).
        apply nth_error_nth with (d := 0) in Ha, Hb. rewrite Ha in *. rewrite Hb.
        destruct (Rtotal_order 0 a) as [Hp|[Hz|Hn]].
        -- rewrite P1 by auto. rewrite Rabs_pos_eq; [ring|auto].
        -- rewrite P3 by auto. rewrite Rabs_left1; [ring|apply Q2; lra].
        -- rewrite P2 by auto. rewrite Rabs_left1; [ring|apply Q2; lra].
Qed.

(** ** Rounding errors *)
Section Main.
Context (T : libm) (HT : libm_accurate T).
Context (red : list (list (nat * list spec_float)) -> list (nat * list spec_float))
  (redb : list (list (nat * list ball)) -> list (nat * list ball)) (redr : list (list (nat * list R)) -> list (nat * list R)).
Hypothesis HR : rayon red.
Hypothesis HRb : rayon redb.
Hypothesis HRr : rayon redr.

Lemma fits_map {F G} (f : F -> G) ts : forall n, fits ts n -> fits (map (map_tape f) ts) n.
Proof.
  induction ts as [|t ts IH]; intros n HF; cbn; [auto|]. destruct HF as (W & N & HF).
  split; [now apply wf_map|]. split; [exact N|]. apply IH. exact HF.
Qed.
Lemma close_tapes ts : Forall2 (tapes_related inside) ts (map (map_tape point) ts) /\
  Forall2 (tapes_related about) (map (map_tape point) ts) (map (map_tape real_of) ts).
Proof. induction ts as [|t ts [A B]]; cbn; split; constructor; auto; apply close_points. Qed.

Theorem along_error ts n x dx : fits ts n -> length x = n -> length dx = n ->
  exists db dr, along_switching Bops redb (map (map_tape point) ts) (map point x) (map point dx) = Ok db /\
    along_switching Rops redr (map (map_tape real_of) ts) (map real_of x) (map real_of dx) = Ok dr /\
    (Forall decided db -> exists G Gb Gr,
      along (f64ops T) red ts x dx = Ok G /\
      along Bops redb (map (map_tape point) ts) (map point x) (map point dx) = Ok Gb /\
      along Rops redr (map (map_tape real_of) ts) (map real_of x) (map real_of dx) = Ok Gr /\
      g_mult G = g_mult Gr /\ bounded_mat (g_hom G) (g_hom Gb) (g_hom Gr) /\ bounded (g_inh G) (g_inh Gb) (g_inh Gr)).
Proof.
  intros HF Lx Ld. destruct (close_tapes ts) as [C1 C2].
  pose proof (fits_map point ts n HF) as Fb. pose proof (fits_map real_of ts n HF) as Fr.
  destruct (along_total Bops redb HRb _ n (map point x) (map point dx) Fb) as (Gb & db & _ & EGb & Eb & _); try (rewrite map_length; auto).
  pose proof (rel_along_switching _ _ _ _ _ (inside_related T HT) (f64_eq_like T) ball_eq_like red redb HR HRb _ _ C1
    _ _ _ _ (inside_points x) (inside_points dx)) as X.
  pose proof (rel_along_switching _ _ _ _ _ about_related ball_eq_like R_eq_like redb redr HRb HRr _ _ C2
    _ _ _ _ (about_points x) (about_points dx)) as Y.
  rewrite Eb in X, Y. apply rrel_ok in X as (dz & Ez & HZ). apply rrel_ok' in Y as (dr & Er & HB).
  exists db, dr. split; [auto|]. split; [auto|]. intros DB.
  assert (length (map point x) = n /\ length (map point dx) = n) as [Lbx Lbd] by (rewrite !map_length; auto).
  pose proof (rel_along _ _ _ _ _ (inside_related T HT) (f64_eq_like T) ball_eq_like inside_compat red redb HR HRb _ _ C1
    n _ _ _ _ HF Fb Lx Ld (inside_points x) (inside_points dx)) as X.
  pose proof (rel_along _ _ _ _ _ about_related ball_eq_like R_eq_like about_compat redb redr HRb HRr _ _ C2
    n _ _ _ _ Fb Fr Lbx Lbd (about_points x) (about_points dx)) as Y.
  rewrite EGb in X, Y. lapply X; [clear X; intros X|]. lapply Y; [clear Y; intros Y|].
  - apply rrel_ok in X as (G & E64 & [x1 x2 x3]). apply rrel_ok' in Y as (Gr & EGr & [y1 y2 y3]).
    exists G, Gb, Gr. do 3 (split; [auto|]). split; [congruence|]. split; [apply bounded_mat_of; auto|apply bounded_of; auto].
  - intros d1 d2 E1 E2. replace d1 with db by congruence. replace d2 with dr by congruence.
    eapply F2_sign'; [exact about_sign|exact HB|exact DB].
  - intros d1 d2 E1 E2. replace d1 with dz by congruence. replace d2 with db by congruence.
    eapply F2_sign; [apply inside_sign|exact HZ|exact DB].
Qed.

(** The driver applied to a chain. *)
Theorem chain_error est c x dx k w ts :
  accurate est (Z.of_nat (chain_len c) + 1) -> (Z.of_nat (chain_len c) + 1 <= 2 ^ 32)%Z -> (2 <= k)%nat ->
  length dx = length x -> recorded (f64ops T) (fn_iter c) x dx ts ->
  exists db dr, along_switching Bops redb (map (map_tape point) ts) (map point x) (map point dx) = Ok db /\
    along_switching Rops redr (map (map_tape real_of) ts) (map real_of x) (map real_of dx) = Ok dr /\
    (Forall decided db -> exists G w' Gb Gr,
      generalized_jacobian_chain (f64ops T) red est c x dx (Some k) w = Ok (G, w') /\
      along Bops redb (map (map_tape point) ts) (map point x) (map point dx) = Ok Gb /\
      along Rops redr (map (map_tape real_of) ts) (map real_of x) (map real_of dx) = Ok Gr /\
      g_mult G = g_mult Gr /\ bounded_mat (g_hom G) (g_hom Gb) (g_hom Gr) /\ bounded (g_inh G) (g_inh Gb) (g_inh Gr)).
Proof.
  intros A B Hk L HC.
  destruct (along_error ts (length x) x dx (recorded_fits _ _ _ _ _ HC L) eq_refl L) as (db & dr & Eb & Er & HE).
  exists db, dr. split; [auto|]. split; [auto|]. intros DB. destruct (HE DB) as (G & Gb & Gr & EG & R').
  destruct (chain_is_along (f64ops T) red HR est c x dx k w ts A B Hk L HC) as (G' & w' & ED & EA).
  exists G', w', Gb, Gr. assert (G' = G) as -> by congruence. split; [exact ED|exact R'].
Qed.
End Main.

(** ** Example: f(x0, x1) = (|x0| - x1, x0) followed by g(u, v) = |u v| *)
Definition ch_f {F} : func F := AdvFn 2 2 (Let1 UAbs 0 (Let2 BSub 2 1 (Ret [3; 0]%nat))).
Definition ch_g {F} : func F := AdvFn 2 1 (Let2 BMul 0 1 (Let1 UAbs 2 (Ret [3]%nat))).
Definition ch_chain {F} : func F := Chain [ch_f; ch_g].
Definition ch_t1 {F} (a b c d : F) : tape F := mkTape [0; 1]%nat [3; 0]%nat [op_abs 2 0; op_sub 3 2 1]%nat [a; b; c; d].
Definition ch_t2 {F} (a b c d : F) : tape F := mkTape [0; 1]%nat [3]%nat [op_mul 2 0 1; op_abs 3 2]%nat [a; b; c; d].
Definition ch_tapes {F} (Fo : Fops F) (a b : F) : list (tape F) :=
  [ch_t1 a b (f_abs Fo a) (f_sub Fo (f_abs Fo a) b);
   ch_t2 (f_sub Fo (f_abs Fo a) b) a (f_mul Fo (f_sub Fo (f_abs Fo a) b) a) (f_abs Fo (f_mul Fo (f_sub Fo (f_abs Fo a) b) a))].
Lemma ch_recorded {F} (Fo : Fops F) a b d e : recorded Fo (fn_iter ch_chain) [a; b] [d; e] (ch_tapes Fo a b).
Proof.
  eapply (recorded_cons Fo ch_f _ _ _ world0); [reflexivity|vm_compute; reflexivity| |reflexivity|vm_compute; reflexivity|].
  { intros ys P H. vm_compute in H. injection H as _ <-. exact I. }
  eapply (recorded_cons Fo ch_g _ _ _ world0); [reflexivity|vm_compute; reflexivity| |reflexivity|vm_compute; reflexivity|constructor].
  intros ys P H. vm_compute in H. injection H as _ <-. exact I.
Qed.
Lemma ch_switching (ts : list (tape spec_float)) a1 a2 a3 a4 b1 b2 b3 b4 : ts = [ch_t1 a1 a2 a3 a4; ch_t2 b1 b2 b3 b4] ->
  along_switching Bops (@concat _) (map (map_tape point) ts) (map point [lit 2; lit 3]) (map point [lit 4; lit (-9)])
    = Ok [Some (6, 0); Some (20, 0)].
Proof.
  intros ->.
  assert (Forall2 (tapes_related exactly) [ch_t1 None None None None; ch_t2 None None None None]
    (map (map_tape point) [ch_t1 a1 a2 a3 a4; ch_t2 b1 b2 b3 b4])) as HC.
  { repeat constructor. }
  pose proof (rel_along_switching _ _ _ _ _ exactly_related Z_eq_like ball_eq_like (@concat _) (@concat _)
    rayon_exists rayon_exists _ _ HC [Some 2; Some 3]%Z (map point [lit 2; lit 3]) [Some 4; Some (-9)]%Z (map point [lit 4; lit (-9)])) as Y.
  lapply Y; [clear Y; intros Y|].
  2: { cbn [map]. rewrite (point_lit 2), (point_lit 3) by (lia || (vm_compute; reflexivity)). repeat constructor. }
  lapply Y; [clear Y; intros Y|].
  2: { cbn [map]. rewrite (point_lit 4), (point_lit (-9)) by (lia || (vm_compute; reflexivity)). repeat constructor. }
  set (dz := along_switching Zops _ _ _ _) in Y. vm_compute in dz. subst dz. apply rrel_ok' in Y as (db & ED & HD).
  rewrite ED. f_equal. clear ED.
  repeat match goal with H : Forall2 exactly _ _ |- _ => inversion H; clear H; subst end.
  cbn in *. subst. reflexivity.
Qed.
Lemma ch_full : libm_accurate libm_real /\
  recorded (f64ops libm_real) (fn_iter ch_chain) [lit 2; lit 3] [lit 4; lit (-9)] (ch_tapes (f64ops libm_real) (lit 2) (lit 3)) /\
  (exists db, along_switching Bops (@concat _) (map (map_tape point) (ch_tapes (f64ops libm_real) (lit 2) (lit 3)))
    (map point [lit 2; lit 3]) (map point [lit 4; lit (-9)]) = Ok db /\ Forall decided db /\ length db = 2%nat) /\
  Forall (fun t => NoDup (t_deps t) /\ abs_once t) (ch_tapes (f64ops libm_real) (lit 2) (lit 3)).
Proof.
  split; [exact libm_real_accurate|]. split; [apply ch_recorded|]. split.
  - eexists. split; [eapply ch_switching; reflexivity|]. split; [|reflexivity].
    repeat (apply Forall_cons; [unfold decided, Rabs; left; destruct (Rcase_abs _); lra|]). apply Forall_nil.
  - repeat (apply Forall_cons; [split; [|unfold abs_once; cbn]; repeat constructor; cbn; intuition discriminate|]). apply Forall_nil.
Qed.
