(** Proofs about the optimisation loop of the perceptron example. *)
From Coq Require Import Reals Lra List Arith ZArith Bool Lia SpecFloat.
From Verif Require Import Base Float FloatInst Operation Tape AContext Methods Function Spec TapeFacts RealInst Param Instances
  FunctionFacts RecordFacts ReplayFacts Replay2 Shape MethodSpec MethodFacts DerivSpec DerivFacts DerivFacts2 Matrix MatrixFacts
  Jacobian JacobianFacts LinearFacts TapeSize Build BuildFacts Programs PerceptronFacts DescentSpec Descent.
Import ListNotations.
Local Open Scope R_scope.

Lemma fdot_inner u v : fdot Rops u v = inner_product u v.
Proof. revert v; induction u as [|a u IH]; intros [|b v]; cbn; rewrite ?IH; reflexivity. Qed.

Section Loop.
Context (red : list (list (nat * list R)) -> list (nat * list R)).
Context (E : list R -> R) (n : nat) (t0 : tape R) (W : wf_tape t0).
Hypothesis Ht : forall p, length p = n -> exists t2 g,
  tape_zero_order Rops t0 p = Ok t2 /\ tape_y t2 = Ok [E p] /\
  (J <- jacobian_reverse Rops red t2 ;; get (m_dat J) 0) = Ok g /\ is_gradient E p g.

Definition reached (t : tape R) : Prop :=
  exists xs, foldM (fun t x => tape_zero_order Rops t x) xs t0 = Ok t.

Lemma reached_zero t p : reached t -> length p = n -> exists t2 g,
  tape_zero_order Rops t p = Ok t2 /\ reached t2 /\ tape_y t2 = Ok [E p] /\
  (J <- jacobian_reverse Rops red t2 ;; get (m_dat J) 0) = Ok g /\ is_gradient E p g.
Proof.
  intros [xs Hx] L. destruct (Ht p L) as (t2 & g & A & B & C & D).
  pose proof (no_history Rops t0 xs t p W Hx) as H. rewrite A in H.
  exists t2, g. split; [auto|]. split; [|auto].
  exists (xs ++ [p]). rewrite foldM_app, Hx. cbn. rewrite H. auto.
Qed.

Lemma reached_gradient t p : reached t -> length p = n -> exists g t2,
  gradient Rops red t p = Ok (g, t2) /\ reached t2 /\ is_gradient E p g.
Proof.
  intros HR L. destruct (reached_zero t p HR L) as (t2 & g & A & B & C & D & G).
  exists g, t2. split; [|auto]. unfold gradient. rewrite A.
  cbn [bind]. destruct (jacobian_reverse Rops red t2) as [J|]; [|discriminate].
  cbn [bind] in D |- *. rewrite D. auto.
Qed.

Lemma v_sub_difference (u v : list R) : length u = length v -> v_sub Rops u v = Ok (difference u v).
Proof. intros L. unfold v_sub. apply Nat.eqb_eq in L. rewrite L. reflexivity. Qed.

Lemma difference_length u v : length u = length v -> length (difference u v) = length u.
Proof. intros L. unfold difference. rewrite map_length, combine_length. lia. Qed.

Lemma loop_descends eps : forall fuel t p g a es0,
  reached t -> length p = n -> is_gradient E p g ->
  exists s fin es, descent_loop Rops red eps fuel (mkDescent t p g a es0) = Ok (s, fin) /\
    gd_printed s = es0 ++ es /\
    descends E eps p g a es (gd_params s) (gd_grad s) /\
    (fin = true -> length2 (gd_grad s) <= eps) /\
    (fin = false -> eps < length2 (gd_grad s) /\ length es = fuel).
Proof.
  assert (Hn : forall g, norm Rops g = length2 g).
  { intros g. unfold norm, norm_squared, length2. rewrite fdot_inner. reflexivity. }
  induction fuel as [|fuel IH]; intros t p g a es0 HR L HG; cbn [descent_loop gd_grad];
    rewrite Hn; change (f_ltb Rops) with Rltb.
  - destruct (Rltb eps (length2 g)) eqn:EB.
    + apply Rltb_true in EB. eexists _, _, []. split; [reflexivity|]. cbn. rewrite app_nil_r.
      split; [auto|]. split; [constructor; auto|]. split; [discriminate|auto].
    + apply Rltb_false in EB. eexists _, _, []. split; [reflexivity|]. cbn. rewrite app_nil_r.
      split; [auto|]. split; [constructor; auto|]. split; [lra|discriminate].
  - destruct (Rltb eps (length2 g)) eqn:EB.
    + apply Rltb_true in EB.
      pose proof (proj1 HG) as Lg.
      set (p1 := difference p (map (Rmult a) g)).
      assert (length p1 = n) as L1.
      { unfold p1. rewrite difference_length; auto. rewrite map_length. auto. }
      destruct (reached_gradient t p1 HR L1) as (g1 & t1 & A1 & R1 & G1).
      destruct (reached_zero t1 p1 R1 L1) as (t2 & _ & A2 & R2 & Y2 & _).
      pose proof (proj1 G1) as Lg1.
      destruct (IH t2 p1 g1 (Rabs (inner_product (difference p1 p) (difference g1 g)) /
         inner_product (difference g1 g) (difference g1 g)) (es0 ++ [E p1]) R2 L1 G1)
        as (s & fin & es & B1 & B2 & B3 & B4 & B5).
      assert (descent_body Rops red (mkDescent t p g a es0) =
        Ok (mkDescent t2 p1 g1 (Rabs (inner_product (difference p1 p) (difference g1 g)) /
         inner_product (difference g1 g) (difference g1 g)) (es0 ++ [E p1]))) as Hb.
      { unfold descent_body. cbn [gd_params gd_grad gd_step gd_tape gd_printed].
        rewrite v_sub_difference by (rewrite map_length; lia).
        change (f_mul Rops) with Rmult. fold p1. cbn [bind]. rewrite A1. cbn [bind fst snd].
        rewrite v_sub_difference by lia. cbn [bind]. rewrite v_sub_difference by lia. cbn [bind].
        rewrite A2. cbn [bind]. rewrite Y2. cbn [bind get nth_error].
        unfold norm_squared. rewrite !fdot_inner. reflexivity. }
      rewrite Hb. cbn [bind]. exists s, fin, (E p1 :: es). split; [auto|].
      split; [rewrite B2, <- app_assoc; auto|]. split; [eapply one_step; eauto|].
      split; [auto|]. intros Hf. destruct (B5 Hf). split; [auto|cbn; auto].
    + apply Rltb_false in EB. eexists _, _, []. split; [reflexivity|]. cbn. rewrite app_nil_r.
      split; [auto|]. split; [constructor; auto|]. split; [lra|discriminate].
Qed.
End Loop.

(** The recorded network: values and gradients of every replay. *)
Lemma xor_replays red w : rayon red ->
  exists t w', record0 Rops (xor_fn Rops) w = Ok (t, w') /\ wf_tape t /\
  forall p, length p = 9%nat -> exists t2 g,
    tape_zero_order Rops t p = Ok t2 /\ tape_y t2 = Ok [network_error p] /\
    (J <- jacobian_reverse Rops red t2 ;; get (m_dat J) 0) = Ok g /\ is_gradient network_error p g.
Proof.
  intros HR.
  destruct (xor_gradient_correct red (repeat 0 9) w HR eq_refl) as (t & w' & _ & HT & _).
  exists t, w'. split; [auto|].
  assert (fn_tape Rops (xor_fn Rops) (repeat 0 9) w = Ok (t, w')) as HF.
  { unfold record0, mbind, mlift in HT. cbn [fn_n xor_fn f_zero Rops] in HT. exact HT. }
  split; [apply (fn_tape_wf _ _ _ _ _ _ HF)|].
  intros p L.
  destruct (xor_gradient_correct red p w HR L) as (t1 & w1 & J & HT1 & HJ & R1 & C1 & HD).
  rewrite HT in HT1. injection HT1 as <- <-.
  assert (straight_f (xor_fn Rops)) as HS.
  { apply straight_body. intros x. unfold xor_error, squared_error, perceptron, sigmoid. b_straight. }
  destruct (replay_is_record Rops (xor_fn Rops) (repeat 0 9) w t w' p w HF) as (t2 & w3 & HT2 & HZ); auto.
  unfold xor_gradient in HJ. rewrite HZ in HJ. cbn [bind] in HJ.
  destruct (fn_tape_fresh Rops _ _ _ _ _ HT2) as (_ & (y & Ey & Ty & Ly) & NI & _).
  assert (v_eval Rops (xor_fn Rops) p = Ok [network_error p]) as Ev.
  { clear -L. do 10 (destruct p as [|? p]; try discriminate L).
    match goal with |- ?l = _ => rcomp l end. reflexivity. }
  rewrite Ev in Ey. injection Ey as <-.
  assert (wf_mat J) as [WJ1 WJ2].
  { assert (no_abs t2) as NA.
    { apply (smooth_no_abs Rops _ _ _ _ _ HT2). unfold xor_fn, smooth_f. cbn. unfold smooth_un, smooth_bin.
      repeat split; discriminate. }
    assert (NoDup (t_deps t2)) as NN.
    { unfold num_deps in Ly. cbn in Ly. destruct (t_deps t2) as [|k [|]]; try discriminate.
      repeat constructor. cbn. tauto. }
    destruct (jacobian_reverse_sweeps red t2 HR (rt_wf _ (proj1 (fn_tape_wf _ _ _ _ _ _ HT2))) NA NN)
      as (J' & EJ' & WJ' & _).
    rewrite HJ in EJ'. injection EJ' as <-. exact WJ'. }
  rewrite R1 in WJ1. rewrite C1 in WJ2.
  destruct J as [jr jc dat]. cbn [m_dat m_rows m_cols] in *. subst jr jc.
  destruct dat as [|g [|]]; try discriminate. inversion WJ2; subst.
  exists t2, g. split; [auto|]. split; [auto|]. split; [rewrite HJ; reflexivity|].
  split; [congruence|]. intros j Hj. rewrite L in Hj. apply (HD j Hj).
Qed.

Theorem perceptron_descends red eps step start fuel w :
  rayon red -> length start = 9%nat ->
  exists s fin w' g0,
    perceptron_main Rops red eps step start fuel w = Ok ((s, fin), w') /\
    descends network_error eps start g0 step (gd_printed s) (gd_params s) (gd_grad s) /\
    (fin = true -> is_gradient network_error (gd_params s) (gd_grad s) /\
                   length2 (gd_grad s) <= eps) /\
    (fin = false -> length (gd_printed s) = fuel /\ eps < length2 (gd_grad s)).
Proof.
  intros HR L. destruct (xor_replays red w HR) as (t & w' & HT & W & Ht).
  destruct (reached_gradient red network_error 9 t W Ht t start) as (g & t1 & A & R1 & G); auto.
  { exists []. reflexivity. }
  destruct (loop_descends red network_error 9 t W Ht eps fuel t1 start g step [] R1 L G)
    as (s & fin & es & B1 & B2 & B3 & B4 & B5).
  cbn in B2. subst es. exists s, fin, w', g.
  split; [unfold perceptron_main, mbind; rewrite HT; unfold mlift; rewrite A; cbn [fst snd];
          rewrite B1; reflexivity|].
  split; [auto|]. split.
  - intros Hf. split; [|auto].
    assert (forall E eps p g a es p' g', descends E eps p g a es p' g' -> is_gradient E p' g') as K
      by (clear; induction 1; auto).
    eapply K; eauto.
  - intros Hf. destruct (B5 Hf). auto.
Qed.

(** ** binary64 *)
Lemma dot_nan T (g : list spec_float) : In S754_nan g -> fdot (f64ops T) g g = S754_nan.
Proof.
  induction g as [|a g IH]; intros Hi; [contradiction|].
  cbn [fdot f_add f_mul f64ops]. destruct Hi as [->|Hi].
  - reflexivity.
  - rewrite (IH Hi). destruct (sf_mul a a); reflexivity.
Qed.

Theorem nan_ends_loop T red eps fuel (s : descent) :
  In S754_nan (gd_grad s) -> descent_loop (f64ops T) red eps fuel s = Ok (s, true).
Proof.
  intros H. assert (f_ltb (f64ops T) eps (norm (f64ops T) (gd_grad s)) = false) as E.
  { unfold norm, norm_squared. rewrite (dot_nan T _ H). cbn. destruct eps as [[]|[]| |[] ? ?]; reflexivity. }
  destruct fuel; cbn [descent_loop]; rewrite E; reflexivity.
Qed.

Definition finite64 (x : spec_float) : Prop :=
  match x with S754_zero _ | S754_finite _ _ _ => True | _ => False end.
Definition zero_or_nan (x : spec_float) : Prop :=
  match x with S754_zero _ | S754_nan => True | _ => False end.

Lemma sub_self x : finite64 x -> sf_sub x x = S754_zero false.
Proof.
  destruct x as [s|s| |s m e]; cbn; try contradiction; intros _.
  - destruct s; reflexivity.
  - unfold sf_sub, SFsub. rewrite Z.sub_diag. reflexivity.
Qed.

Lemma zip_sub_self g : Forall finite64 g -> v_zip sf_sub g g = repeat (S754_zero false) (length g).
Proof.
  unfold v_zip. induction 1 as [|x g Hx HF IH]; cbn; auto. rewrite sub_self by auto. f_equal. exact IH.
Qed.

Lemma dot_zeros T n u : zero_or_nan (fdot (f64ops T) u (repeat (S754_zero false) n)).
Proof.
  revert n; induction u as [|a u IH]; intros [|n]; cbn [fdot repeat f64ops f_zero f_add f_mul]; try exact I.
  specialize (IH n). set (d := fdot _ u _) in *. clearbody d.
  assert (zero_or_nan (sf_mul a (S754_zero false))) as Hm by (destruct a; exact I).
  destruct (sf_mul a (S754_zero false)) as [s1| | |], d as [s2| | |]; cbn in Hm, IH; try contradiction; try exact I.
  destruct s1, s2; exact I.
Qed.

Lemma dot_zeros_self T n : let z := repeat (S754_zero false) n in fdot (f64ops T) z z = S754_zero false.
Proof.
  cbn zeta. induction n as [|n IH]; cbn [repeat fdot]; [reflexivity|]. rewrite IH. reflexivity.
Qed.

(** An iteration that does not change the parameters makes them NaN in the next. *)
Theorem stalled T red (s s' : descent) t :
  gradient (f64ops T) red (gd_tape s) (gd_params s) = Ok (gd_grad s, t) ->
  Forall finite64 (gd_grad s) ->
  descent_body (f64ops T) red s = Ok s' -> gd_params s' = gd_params s ->
  gd_grad s' = gd_grad s /\ gd_step s' = S754_nan /\
  forall s'', descent_body (f64ops T) red s' = Ok s'' -> Forall (eq S754_nan) (gd_params s'').
Proof.
  intros HG HF HB HP. unfold descent_body in HB.
  apply bind_ok in HB as (pn & E1 & HB). apply bind_ok in HB as ([g1 t1] & E2 & HB).
  apply bind_ok in HB as (pd & E3 & HB). apply bind_ok in HB as (gd & E4 & HB).
  cbn zeta in HB. apply bind_ok in HB as (t2 & E5 & HB). apply bind_ok in HB as (y & E6 & HB).
  apply bind_ok in HB as (e & E7 & HB). injection HB as <-. cbn [gd_params gd_grad gd_step] in *.
  subst pn. rewrite HG in E2. injection E2 as <- <-. cbn [fst snd] in *.
  split; [auto|].
  assert (gd = repeat (S754_zero false) (length (gd_grad s))) as ->.
  { unfold v_sub in E4. rewrite Nat.eqb_refl in E4. injection E4 as <-. apply zip_sub_self. auto. }
  assert (f_div (f64ops T) (f_abs (f64ops T)
    (fdot (f64ops T) pd (repeat (S754_zero false) (length (gd_grad s)))))
    (norm_squared (f64ops T) (repeat (S754_zero false) (length (gd_grad s)))) = S754_nan) as Hn.
  { unfold norm_squared. rewrite dot_zeros_self.
    pose proof (dot_zeros T (length (gd_grad s)) pd) as Hz.
    destruct (fdot (f64ops T) pd _); cbn in Hz; try contradiction; reflexivity. }
  cbn [f_div f_abs f64ops] in Hn. rewrite Hn. split; [auto|].
  intros s'' HB. unfold descent_body in HB. cbn [gd_params gd_grad gd_step gd_tape gd_printed] in HB.
  apply bind_ok in HB as (pn & F1 & HB). apply bind_ok in HB as ([g1 t3] & F2 & HB).
  apply bind_ok in HB as (pd' & F3 & HB). apply bind_ok in HB as (gd' & F4 & HB).
  cbn zeta in HB. apply bind_ok in HB as (t4 & F5 & HB). apply bind_ok in HB as (y' & F6 & HB).
  apply bind_ok in HB as (e' & F7 & HB). injection HB as <-. cbn [gd_params].
  unfold v_sub in F1. destruct (_ =? _)%nat; [|discriminate]. injection F1 as <-.
  cbn [f_sub f_mul f64ops]. unfold v_zip. rewrite Forall_map. rewrite Forall_forall.
  intros [a b] Hab. apply in_combine_r in Hab. apply in_map_iff in Hab as (c & <- & _). cbn [fst snd].
  destruct c; cbn; destruct a; reflexivity.
Qed.

(** 2^-60 *)
Definition tiny : spec_float := S754_finite false 4503599627370496 (-112).
(** 1e-20, the example's epsilon, to nearest *)
Definition eps20 : spec_float := S754_finite false 6646139978924579 (-119).
Definition ones : list spec_float := map lit [1; 1; 1; 1; 1; 1; 1; 1; 1]%Z.

(** Some values of the exponential function, to nearest *)
Definition exp_values : list (spec_float * spec_float) :=
  [(S754_zero false, S754_finite false 4503599627370496 (-52));
   (S754_finite false 4503599627370496 (-52), S754_finite false 6121026514868073 (-51));
   (S754_finite false 4503599627370496 (-51), S754_finite false 8319337573440942 (-50));
   (S754_finite false 6755399441055744 (-51), S754_finite false 5653576037675270 (-48));
   (S754_finite false 5544194955989342 (-51), S754_finite false 6603188310830675 (-49));
   (S754_finite false 6218557205855461 (-51), S754_finite false 8908711413155502 (-49));
   (S754_finite false 6541812296285534 (-51), S754_finite false 5141971291100472 (-48))].
Definition libm_exp : libm :=
  mkLibm (l_sin libm0) (l_cos libm0) (l_tan libm0)
    (fun x => match find (fun e => SFeqb (fst e) x) exp_values with
              | Some e => snd e
              | None => match x with S754_nan => S754_nan | _ => S754_zero false end
              end)
    (l_ln libm0) (l_asin libm0) (l_acos libm0) (l_atan libm0) (l_powf libm0).

Definition is_nan64 (x : spec_float) : bool := match x with S754_nan => true | _ => false end.
Definition ended_with_nan (r : res (descent * bool * world spec_float)) : bool :=
  match r with
  | Ok ((s, true), _) => (length (gd_printed s) =? 2)%nat && forallb is_nan64 (gd_params s)
  | _ => false
  end.
Lemma ends_with_nan_check : ended_with_nan (perceptron_main (f64ops libm_exp) (@concat _) eps20 tiny ones 5 world0) = true.
Proof. vm_compute. reflexivity. Qed.

Theorem ends_with_nan :
  exists s w', perceptron_main (f64ops libm_exp) (@concat _) eps20 tiny ones 5 world0 = Ok ((s, true), w') /\
    length (gd_printed s) = 2%nat /\ Forall (eq S754_nan) (gd_params s).
Proof.
  pose proof ends_with_nan_check as H.
  destruct (perceptron_main (f64ops libm_exp) (@concat _) eps20 tiny ones 5 world0) as [[[s []] w']|]; try discriminate.
  cbn in H. apply andb_prop in H as [H1 H2]. apply Nat.eqb_eq in H1.
  exists s, w'. split; [auto|]. split; [auto|].
  rewrite forallb_forall in H2. apply Forall_forall. intros x Hx. apply H2 in Hx. destruct x; try discriminate. auto.
Qed.
