(** How much a function records. *)
From Coq Require Import List Arith ZArith Bool Lia.
From Verif Require Import Base Float Operation Tape AContext Methods Function Spec TapeFacts FunctionFacts Param ReplayFacts.
Import ListNotations.

(** ** Counting elementary operations of the methods *)
Section Cost.
Context (g : OpCode -> nat).
(** number of elementary operations a method performs, weighted by kind *)
Definition cost1 (u : un) : nat :=
  match u with
  | UNeg => g Sub + g Mul | UAbs => g Abs | UExp => g Exp | ULn => g Ln | USin => g Sin | UCos => g Cos
  | UTan => g Tan | UAsin => g Asin | UAcos => g Acos | UAtan => g Atan | URecip => g Div
  | UPowi _ | USqrt | UExp2 => g Powf
  | ULog2 | ULog10 => g Ln + g Ln + g Div
  | UCbrt => g Div + g Powf
  | UUnsupported => 0
  end.
Definition cost2 (b : bin) : nat :=
  match b with
  | BAdd => g Add | BSub => g Sub | BMul => g Mul | BDiv => g Div | BPowf => g Powf
  | BLog => g Ln + g Ln + g Div
  | BMax => g Add + g Sub + g Abs + g Add + g Mul
  | BMin => g Add + g Sub + g Abs + g Sub + g Mul
  | BAbsSub => g Sub + g Abs
  | BHypot => g Powf + g Powf + g Add + g Powf
  | BUnsupported => 0
  end.

(** at most [n] elementary operations on every path *)
Fixpoint at_most {F : Type} (p : prog F) (n : nat) : Prop :=
  match p with
  | Ret _ | Abort => True
  | LetC _ p' => at_most p' n
  | Let1 u _ p' => exists m, cost1 u + m <= n /\ at_most p' m
  | Let2 b _ _ p' => exists m, cost2 b + m <= n /\ at_most p' m
  | LetMulAdd _ _ _ p' => exists m, g Mul + g Add + m <= n /\ at_most p' m
  | Inspect _ k => forall v, at_most (k v) n
  end.
Fixpoint at_most_f {F : Type} (f : func F) (n : nat) : Prop :=
  match f with
  | Simple _ _ p | AdvFn _ _ p => at_most p n
  | Chain fs =>
      (fix all (l : list (func F)) (n : nat) : Prop :=
         match l with [] => True | f :: l' => exists a b, a + b <= n /\ at_most_f f a /\ all l' b end) fs n
  end.
End Cost.

(** ** Weight of what contexts contain *)
Section Weight.
Context {F : Type} (Fo : Fops F) (g : OpCode -> nat).
Definition weight (ops : list operation) : nat := fold_right (fun o s => g (opcode o) + s) 0 ops.
Lemma weight_app a b : weight (a ++ b) = weight a + weight b.
Proof. unfold weight. induction a as [|o a IH]; cbn [app fold_right]; auto. rewrite IH. lia. Qed.

Definition ctx_weight (w : world F) (c : nat) : nat :=
  match w_ctx w c with Some i => weight (i_ops i) | None => 0 end.
Definition ctx_deps (w : world F) (c : nat) : nat :=
  match w_ctx w c with Some i => length (i_deps i) * g Const | None => 0 end.
(** [m] adds at most [n], and the constants outputs may need *)
Definition adds {A} (m : M (world F) A) (n : nat) : Prop :=
  forall w a w', m w = Ok (a, w') -> forall c, ctx_weight w' c + ctx_deps w c <= ctx_weight w c + ctx_deps w' c + n.

Lemma adds_ret {A} (a : A) n : adds (mret a) n.
Proof. intros w b w' [= _ <-] c. lia. Qed.
Lemma adds_lift {A} (r : res A) n : adds (mlift r) n.
Proof. intros w b w'. unfold mlift. destruct r; [|discriminate]. intros [= _ <-] c. lia. Qed.
Lemma adds_bind {A B} (m : M (world F) A) (k : A -> M (world F) B) n1 n2 :
  adds m n1 -> (forall a, adds (k a) n2) -> adds (mbind m k) (n1 + n2).
Proof.
  intros H1 H2 w b w'. unfold mbind. destruct (m w) as [[a w1]|] eqn:E; [|discriminate].
  intros E2 c. specialize (H1 _ _ _ E c). specialize (H2 a _ _ _ E2 c). lia.
Qed.
Lemma adds_le {A} (m : M (world F) A) n n' : adds m n -> n <= n' -> adds m n'.
Proof. intros H L w a w' E c. specialize (H _ _ _ E c). lia. Qed.

Lemma adds_with {A} c (f : inner F -> res (A * inner F)) n :
  (forall i a i', f i = Ok (a, i') -> weight (i_ops i') + length (i_deps i) * g Const <=
     weight (i_ops i) + length (i_deps i') * g Const + n) -> adds (with_ctx c f) n.
Proof.
  intros H w a w'. unfold with_ctx. destruct (w_ctx w c) as [i|] eqn:E; [|discriminate].
  destruct (f i) as [[b i']|] eqn:Ef; [|discriminate]. intros [= <- <-] c'. unfold ctx_weight, ctx_deps, upd_ctx. cbn.
  destruct (Nat.eqb_spec c' c) as [->|]; [|lia]. rewrite E. now apply H in Ef.
Qed.

Lemma adds_record tof c oc (v : F) a1 a2 : adds (record tof c oc v a1 a2) (g oc).
Proof.
  apply adds_with. intros i a i'. destruct (unwrap (tof v)); [|discriminate]. cbn. intros [= _ <-]. cbn.
  rewrite weight_app. cbn. lia.
Qed.
Lemma adds_ensure tof c (x : AF F) : adds (ensure_id tof c x) (g Const).
Proof.
  unfold ensure_id. destruct (af_ctx x) as [[k v]|]; [apply adds_ret|]. apply adds_record.
Qed.

Lemma adds_ok {A B} (a : A) (k : A -> M (world F) B) n : adds (k a) n -> adds (mbind (mlift (Ok a)) k) n.
Proof. intros H. exact H. Qed.

Lemma adds_fop tof oc x y : adds (from_op Fo tof oc x y) (g oc + g Const).
Proof.
  unfold from_op. set (N := g oc + g Const).
  apply (adds_bind _ _ 0 N); [apply adds_lift|intros v].
  apply (adds_bind _ _ 0 N); [apply adds_lift|intros dv].
  destruct (pick_cid x y) as [[c|]|p] eqn:E.
  - apply adds_ok. cbv beta iota. apply (adds_bind _ _ 0 N).
    { intros w a w' [= _ <-] k. lia. }
    intros [c'|]; [|apply adds_ret].
    destruct (af_ctx x) as [[cx vx]|] eqn:Ex.
    + apply (adds_bind _ _ 0 N).
      { unfold ensure_id. rewrite Ex. apply adds_ret. }
      intros i1. apply (adds_le _ (g Const + g oc)); [|unfold N; lia]. apply adds_bind.
      { destruct y; [|apply adds_ret].
        apply (adds_le _ (g Const + 0)); [|lia]. apply adds_bind; [apply adds_ensure|intros; apply adds_ret]. }
      intros i2. apply (adds_le _ (g oc + 0)); [|lia]. apply adds_bind; [apply adds_record|intros; apply adds_ret].
    + assert (exists y', y = Some y' /\ exists l, af_ctx y' = Some l) as (y' & -> & [cy vy] & Ey).
      { unfold pick_cid in E. rewrite Ex in E. destruct y as [y'|]; [|discriminate].
        destruct (af_ctx y') as [[cy vy]|] eqn:Ey; [eauto|discriminate]. }
      apply (adds_le _ (g Const + g oc)); [|unfold N; lia]. apply adds_bind; [apply adds_ensure|]. intros i1.
      apply (adds_bind _ _ 0 (g oc)).
      { apply (adds_bind _ _ 0 0); [|intros; apply adds_ret]. unfold ensure_id. rewrite Ey. apply adds_ret. }
      intros i2. apply (adds_le _ (g oc + 0)); [|lia]. apply adds_bind; [apply adds_record|intros; apply adds_ret].
  - intros w a w' H. cbn in H. injection H as _ <-. lia.
  - intros w a w' H. discriminate H.
Qed.

(** ** Methods, programs, functions *)
Definition g' (oc : OpCode) : nat := g oc + g Const.
Ltac step := first [apply adds_fop | apply adds_bind; [apply adds_fop|intros ?]].

Lemma adds_meth1 tof u x : adds (meth1 Fo (from_op Fo tof) (af_const Fo) u x) (cost1 g' u).
Proof.
  destruct u; cbn [meth1 cost1]; unfold m_neg, m_recip, m_powi, m_sqrt, m_exp2, m_log2, m_log10, m_log, m_cbrt,
    m_sub, m_mul, m_div, m_abs, m_exp, m_ln, m_sin, m_cos, m_tan, m_asin, m_acos, m_atan, m_powf;
    rewrite <- ?Nat.add_assoc; repeat step.
  apply adds_lift.
Qed.
Lemma adds_meth2 tof b x y : adds (meth2 Fo (from_op Fo tof) (af_const Fo) b x y) (cost2 g' b).
Proof.
  destruct b; cbn [meth2 cost2]; unfold m_max, m_min, m_abs_sub, m_hypot, m_log, m_powi, m_sqrt,
    m_add, m_sub, m_mul, m_div, m_abs, m_ln, m_powf; rewrite <- ?Nat.add_assoc; repeat step.
  apply adds_lift.
Qed.

Lemma adds_run tof p : forall n env, at_most g' p n -> adds (run Fo (from_op Fo tof) (af_const Fo) af_v p env) n.
Proof.
  induction p as [outs|c p IH|u a p IH|b a1 a2 p IH|a1 a2 a3 p IH|a k IH|]; intros n env H; cbn [at_most run] in *.
  - apply adds_lift.
  - now apply IH.
  - destruct H as (m & L & H). apply (adds_bind _ _ 0 n); [apply adds_lift|intros x].
    eapply adds_le; [|exact L]. apply adds_bind; [apply adds_meth1|intros r; now apply IH].
  - destruct H as (m & L & H). apply (adds_bind _ _ 0 n); [apply adds_lift|intros x].
    apply (adds_bind _ _ 0 n); [apply adds_lift|intros y].
    eapply adds_le; [|exact L]. apply adds_bind; [apply adds_meth2|intros r; now apply IH].
  - destruct H as (m & L & H). apply (adds_bind _ _ 0 n); [apply adds_lift|intros x].
    apply (adds_bind _ _ 0 n); [apply adds_lift|intros y]. apply (adds_bind _ _ 0 n); [apply adds_lift|intros z].
    eapply adds_le; [|exact L]. apply adds_bind; [|intros r; now apply IH].
    unfold m_mul_add, m_mul, m_add. repeat step.
  - apply (adds_bind _ _ 0 n); [apply adds_lift|intros x]. apply IH. apply H.
  - apply adds_lift.
Qed.

Lemma adds_eval f : forall n x, at_most_f g' f n -> adds (eval Fo f x) n.
Proof.
  unfold eval. induction f as [n m p|n m p|fs IH] using func_ind'; intros k x H; cbn [at_most_f feval] in *.
  - now apply adds_run.
  - apply (adds_bind _ _ 0 k); [apply adds_lift|intros _].
    eapply adds_le; [apply (adds_bind _ _ k 0); [now apply adds_run|]|lia].
    intros r. apply (adds_bind _ _ 0 0); [apply adds_lift|intros; apply adds_ret].
  - revert k x H. induction IH as [|f fs Hf HF IHF]; intros k x H; [apply adds_ret|].
    destruct H as (a & b & L & H1 & H2). eapply adds_le; [|exact L]. apply adds_bind; [now apply Hf|].
    intros y. now apply IHF.
Qed.

Lemma adds_set_indeps tof c (xs : list (AF F)) : adds (set_indeps tof c xs) 0.
Proof.
  induction xs as [|x xs IH]; cbn [set_indeps]; [apply adds_ret|].
  apply (adds_bind _ _ 0 0); [|intros; apply (adds_bind _ _ 0 0); [apply IH|intros; apply adds_ret]].
  apply adds_with. intros i a i'. destruct (unwrap (tof (af_v x))); [|discriminate]. cbn. intros [= _ <-]. cbn [i_ops i_deps]. lia.
Qed.
Lemma adds_set_dep tof c (x : AF F) : adds (set_dep tof c x) 0.
Proof.
  apply adds_with. intros i a i'. destruct (af_ctx x) as [[k v]|].
  - destruct (assert (k =? c)); [|discriminate]. cbn. intros [= _ <-]. cbn [i_ops i_deps].
    rewrite app_length, Nat.mul_add_distr_r. lia.
  - destruct (unwrap (tof (af_v x))); [|discriminate]. cbn. intros [= _ <-]. cbn [i_ops i_deps].
    rewrite weight_app, app_length, Nat.mul_add_distr_r. unfold weight at 2. cbn [fold_right opcode length]. lia.
Qed.
Lemma adds_set_deps tof c (xs : list (AF F)) : adds (set_dep_slice tof c xs) 0.
Proof.
  induction xs as [|x xs IH]; cbn [set_dep_slice]; [apply adds_ret|].
  apply (adds_bind _ _ 0 0); [apply adds_set_dep|auto].
Qed.

(** The weight of a recorded tape. *)
Theorem tape_weight f n x w t w' : fn_tape Fo f x w = Ok (t, w') -> at_most_f g' f n ->
  weight (t_ops t) <= n + num_deps t * g Const.
Proof.
  intros HT Hn. unfold fn_tape, mbind in HT.
  destruct (ctx_new w) as [[c w1]|] eqn:E1; [|discriminate].
  destruct (set_indeps Some c (map (af_const Fo) x) w1) as [[inp w2]|] eqn:E2; [|discriminate].
  destruct (eval Fo f inp w2) as [[out w3]|] eqn:E3; [|discriminate].
  destruct (set_dep_slice Some c out w3) as [[u w4]|] eqn:E4; [|discriminate].
  destruct (ctx_tape c w4) as [[t0 w5]|] eqn:E5; [|discriminate].
  cbn in HT. injection HT as <- <-.
  pose proof (adds_set_indeps Some c _ _ _ _ E2 c) as A2.
  pose proof (adds_eval f n inp Hn _ _ _ E3 c) as A3.
  pose proof (adds_set_deps Some c out _ _ _ E4 c) as A4.
  unfold ctx_tape, with_ctx in E5. destruct (w_ctx w4 c) as [i4|] eqn:E; [|discriminate]. injection E5 as <- <-.
  unfold ctx_new in E1. injection E1 as <- <-.
  unfold ctx_weight, ctx_deps in A2, A3, A4. cbn [w_ctx] in A2. rewrite E in A4. rewrite Nat.eqb_refl in A2. cbn in A2.
  unfold num_deps. cbn [t_ops t_deps]. lia.
Qed.
End Weight.

(** ** Two readings *)

(** No call of abs, max, min, abs_sub. *)
Definition smooth_un (u : un) : Prop := u <> UAbs.
Definition smooth_bin (b : bin) : Prop := b <> BMax /\ b <> BMin /\ b <> BAbsSub.
Fixpoint smooth_p {F : Type} (p : prog F) : Prop :=
  match p with
  | Ret _ | Abort => True
  | LetC _ p' | LetMulAdd _ _ _ p' => smooth_p p'
  | Let1 u _ p' => smooth_un u /\ smooth_p p'
  | Let2 b _ _ p' => smooth_bin b /\ smooth_p p'
  | Inspect _ k => forall v, smooth_p (k v)
  end.
Fixpoint smooth_f {F : Type} (f : func F) : Prop :=
  match f with
  | Simple _ _ p | AdvFn _ _ p => smooth_p p
  | Chain fs => (fix all (l : list (func F)) : Prop := match l with [] => True | f :: l' => smooth_f f /\ all l' end) fs
  end.

(** At most [n] method calls on every path. *)
Fixpoint calls_p {F : Type} (p : prog F) (n : nat) : Prop :=
  match p with
  | Ret _ | Abort => True
  | LetC _ p' => calls_p p' n
  | Let1 _ _ p' | Let2 _ _ _ p' | LetMulAdd _ _ _ p' => exists m, n = S m /\ calls_p p' m
  | Inspect _ k => forall v, calls_p (k v) n
  end.
Fixpoint calls_f {F : Type} (f : func F) (n : nat) : Prop :=
  match f with
  | Simple _ _ p | AdvFn _ _ p => calls_p p n
  | Chain fs =>
      (fix all (l : list (func F)) (n : nat) : Prop :=
         match l with [] => True | f :: l' => exists a b, a + b <= n /\ calls_f f a /\ all l' b end) fs n
  end.

Definition g_abs (oc : OpCode) : nat := match oc with Abs => 1 | _ => 0 end.
Definition g_all (oc : OpCode) : nat := 1.

Lemma smooth_at_most {F} (p : prog F) : smooth_p p -> at_most (g' g_abs) p 0.
Proof.
  induction p as [outs|c p IH|u a p IH|b a1 a2 p IH|a1 a2 a3 p IH|a k IH|]; cbn [smooth_p at_most]; intros H; auto.
  - exists 0. destruct H as [H1 H2]. split; [|auto]. destruct u; cbn; auto. destruct (H1 eq_refl).
  - exists 0. destruct H as [(H1 & H2 & H3) H4]. split; [|auto]. destruct b; cbn; auto; contradiction.
  - exists 0. split; [cbn; auto|auto].
Qed.
Lemma smooth_at_most_f {F} (f : func F) : smooth_f f -> at_most_f (g' g_abs) f 0.
Proof.
  induction f as [n m p|n m p|fs IH] using func_ind'; cbn [smooth_f at_most_f]; try apply smooth_at_most.
  induction IH as [|f fs Hf HF IHF]; auto. intros [H1 H2]. exists 0, 0. split; [auto|]. split; auto. exact (IHF H2).
Qed.

Lemma calls_at_most {F} (p : prog F) : forall n, calls_p p n -> at_most (g' g_all) p (10 * n).
Proof.
  induction p as [outs|c p IH|u a p IH|b a1 a2 p IH|a1 a2 a3 p IH|a k IH|]; cbn [calls_p at_most]; intros n H; auto;
    try (destruct H as (m & -> & H); exists (10 * m); split; [|auto]).
  - destruct u; cbn; lia.
  - destruct b; cbn; lia.
  - cbn; lia.
Qed.
Lemma at_most_mono g {F} (p : prog F) : forall n n', n <= n' -> at_most g p n -> at_most g p n'.
Proof.
  induction p as [outs|c p IH|u a p IH|b a1 a2 p IH|a1 a2 a3 p IH|a k IH|]; cbn [at_most]; intros n n' L H; eauto;
    try (destruct H as (m & Lm & H); exists m; split; [lia|auto]).
Qed.
Lemma calls_at_most_f {F} (f : func F) : forall n, calls_f f n -> at_most_f (g' g_all) f (10 * n).
Proof.
  induction f as [n m p|n m p|fs IH] using func_ind'; cbn [calls_f at_most_f]; intros k; try apply calls_at_most.
  revert k. induction IH as [|f fs Hf HF IHF]; intros k; auto. intros (a & b & L & H1 & H2).
  exists (10 * a), (10 * b). split; [lia|]. split; [auto|]. exact (IHF b H2).
Qed.

Lemma weight_abs ops : weight g_abs ops = length (filter is_abs ops).
Proof.
  unfold weight. induction ops as [|o ops IH]; cbn [fold_right filter length]; auto. rewrite IH.
  destruct (opcode o) eqn:E; unfold is_abs; rewrite ?E; cbn; auto.
Qed.
Lemma weight_all ops : weight g_all ops = length ops.
Proof. unfold weight. induction ops; cbn [fold_right length]; auto. Qed.

Theorem smooth_no_abs {F} (Fo : Fops F) f x w t w' : fn_tape Fo f x w = Ok (t, w') -> smooth_f f -> num_abs t = 0.
Proof.
  intros HT Hs. pose proof (tape_weight Fo g_abs f 0 x w t w' HT (smooth_at_most_f f Hs)) as H.
  rewrite weight_abs in H. cbn in H. unfold num_abs. lia.
Qed.

Theorem tape_size {F} (Fo : Fops F) f n x w t w' : fn_tape Fo f x w = Ok (t, w') -> calls_f f n ->
  length (t_ops t) <= 10 * n + num_deps t.
Proof.
  intros HT Hn. pose proof (tape_weight Fo g_all f (10 * n) x w t w' HT (calls_at_most_f f n Hn)) as H.
  rewrite weight_all in H. unfold g_all in H. lia.
Qed.

(** Every entry of the tape holds one value, and so does every independent variable. *)
Lemma recorded_vals {F} (t : tape F) : recorded_tape t -> length (t_vals t) = num_indeps t + length (t_ops t).
Proof.
  intros [W NN _ C].
  assert (def_ids (t_ops t) = map vid (t_ops t)) as E.
  { unfold def_ids. f_equal. clear -NN. revert NN. induction (t_ops t) as [|o l IH]; intros H; [reflexivity|].
    cbn. unfold is_nop at 1.
    assert (opcode_eqb (opcode o) Nop = false) as ->.
    { pose proof (H o (or_introl eq_refl)). destruct (opcode o); try reflexivity. congruence. }
    cbn. f_equal. apply IH. intros o' I. apply H. now right. }
  assert (NoDup (t_indeps t ++ def_ids (t_ops t))) as ND.
  { pose proof (wf_sorted t W) as HS. pose proof (wf_indep_def t W) as HD.
    assert (NoDup (def_ids (t_ops t))) as N2.
    { clear -HS. induction HS as [|a l HS IH HF]; constructor; auto. intros I. rewrite Forall_forall in HF. specialize (HF a I). lia. }
    pose proof (wf_indep_nodup t W) as N1. revert N1 HD. clear -N2.
    induction (t_indeps t) as [|i l IH]; cbn; intros N1 HD; auto.
    apply NoDup_cons_iff in N1 as [N0 N1]. constructor.
    - rewrite in_app_iff. intros [I|I]; [auto|]. apply (HD i); auto.
    - apply IH; auto. }
  assert (forall k, In k (t_indeps t ++ def_ids (t_ops t)) <-> In k (seq 0 (length (t_vals t)))) as HI.
  { intros k. rewrite in_app_iff, in_seq. split.
    - intros [I|I]; [pose proof (wf_indep_range t W k I); lia|].
      apply in_def_ids in I as (o & I & No & <-). pose proof (wf_ops t W o I) as Ho. 
      unfold wf_op in Ho. destruct (opcode o); try tauto; lia.
    - intros [_ Hk]. apply C. lia. }
  assert (length (t_indeps t ++ def_ids (t_ops t)) = length (seq 0 (length (t_vals t)))) as HL.
  { apply Nat.le_antisymm; apply NoDup_incl_length; auto using seq_NoDup; intros k; apply HI. }
  rewrite app_length, E, map_length, seq_length in HL. unfold num_indeps. lia.
Qed.

Theorem tape_size_all {F} (Fo : Fops F) f n x w t w' : fn_tape Fo f x w = Ok (t, w') -> calls_f f n ->
  length (t_ops t) <= 10 * n + num_deps t /\ length (t_vals t) = length x + length (t_ops t).
Proof.
  intros HT Hn. split; [eapply tape_size; eauto|].
  destruct (fn_tape_wf Fo _ _ _ _ _ HT) as (R & _ & N). rewrite <- N. now apply recorded_vals.
Qed.
