(** The compiled program does what the nested evaluation does. *)
From Coq Require Import List Arith ZArith Bool Lia.
From Verif Require Import Base Float Operation Tape AContext Methods Function Spec Param Instances FunctionFacts SweepFacts Nested Hess.
Import ListNotations.

Section HessComp.
Context {F V St : Type} (Fo : Fops F).
Context (fop : OpCode -> V -> option V -> M St V) (cst : F -> V) (val : V -> F).
Notation RUN := (run Fo fop cst val).

Definition ext (e e' : list V) : Prop := exists l, e' = e ++ l.
Lemma ext_refl e : ext e e.
Proof. exists []. rewrite app_nil_r. auto. Qed.
Lemma ext_trans a b c : ext a b -> ext b c -> ext a c.
Proof. intros [l ->] [l' ->]. exists (l ++ l'). rewrite app_assoc. auto. Qed.
Lemma ext_nth e e' i a : ext e e' -> nth_error e i = Some a -> nth_error e' i = Some a.
Proof.
  intros [l ->] H. rewrite nth_error_app1; auto. apply nth_error_Some. congruence.
Qed.
Lemma ext_snoc e a : ext e (e ++ [a]).
Proof. exists [a]. auto. Qed.

Definition okC {A B} (R : list V -> A -> B -> Prop) (env : list V) (m : M St A) (c : C B) : Prop :=
  forall s k,
  match m s with
  | Ok (a, s') => exists b env', ext env env' /\ R env' a b /\
                    RUN (c k (length env)) env s = RUN (k b (length env')) env' s'
  | Panic _ => exists q, RUN (c k (length env)) env s = Panic q
  end.

Definition Rn (env : list V) (a : V) (i : nat) : Prop := nth_error env i = Some a.
Definition Rp (env : list V) (a : V * V) (i : reg) : Prop := Rn env (fst a) (fst i) /\ Rn env (snd a) (snd i).
Definition Ro {A B} (R : A -> B -> Prop) (a : option A) (b : option B) : Prop := orel R a b.

Lemma Rn_ext e e' a i : ext e e' -> Rn e a i -> Rn e' a i.
Proof. apply ext_nth. Qed.
Lemma Rp_ext e e' a i : ext e e' -> Rp e a i -> Rp e' a i.
Proof. intros H [H1 H2]. split; eapply Rn_ext; eauto. Qed.

Lemma okC_bind {A B A' B'} (R : list V -> A -> B -> Prop) (R' : list V -> A' -> B' -> Prop) env m c g h :
  okC R env m c ->
  (forall env' a b, ext env env' -> R env' a b -> okC R' env' (g a) (h b)) ->
  okC R' env (mbind m g) (cbind c h).
Proof.
  intros Hm Hg s k. unfold mbind, cbind. specialize (Hm s (fun a n' => h a k n')). cbv beta in Hm.
  destruct (m s) as [[a s']|p]; [|exact Hm].
  destruct Hm as (b & env' & He & HR & ->). specialize (Hg env' a b He HR s' k).
  destruct (g a s') as [[a2 s2]|p]; [|exact Hg].
  destruct Hg as (b2 & e2 & He2 & HR2 & ->). exists b2, e2. eauto using ext_trans.
Qed.
Lemma okC_ret {A B} (R : list V -> A -> B -> Prop) env a b : R env a b -> okC R env (mret a) (cret b).
Proof. intros H s k. cbn. exists b, env. auto using ext_refl. Qed.
Lemma okC_panic {A B} (R : list V -> A -> B -> Prop) env p : okC R env (mlift (Panic p)) cfail.
Proof. intros s k. cbn. eauto. Qed.
Lemma okC_const {A B} (R : list V -> A -> B -> Prop) env c m h :
  (forall env' i, ext env env' -> Rn env' (cst c) i -> okC R env' m (h i)) ->
  okC R env m (cbind (c_const c) h).
Proof.
  intros H s k. unfold cbind, c_const. cbn [run].
  specialize (H (env ++ [cst c]) (length env) (ext_snoc _ _)).
  assert (Rn (env ++ [cst c]) (cst c) (length env)) as HR
    by (unfold Rn; rewrite nth_error_app2, Nat.sub_diag by lia; reflexivity).
  specialize (H HR s k). rewrite app_length, Nat.add_1_r in H. cbv beta.
  destruct (m s) as [[a s']|p]; auto.
  destruct H as (b & e & He & H). exists b, e. split; auto. eapply ext_trans; [apply ext_snoc|]; eauto.
Qed.
Lemma okC_zero env : okC Rn env (mret (cst (f_zero Fo))) (c_const (f_zero Fo)).
Proof.
  intros s k. cbn. exists (length env), (env ++ [cst (f_zero Fo)]). split; [apply ext_snoc|].
  rewrite app_length, Nat.add_1_r. split; [|reflexivity].
  unfold Rn. rewrite nth_error_app2, Nat.sub_diag by lia. reflexivity.
Qed.

Lemma Rn_get env a i : Rn env a i -> get env i = Ok a.
Proof. unfold Rn, get. intros ->. reflexivity. Qed.

Lemma okC_un u env a i m : Rn env a i -> m = meth1 Fo fop cst u a -> okC Rn env m (c_un u i).
Proof.
  intros H -> s k. unfold c_un. cbn [run]. unfold mbind at 1. unfold mlift. rewrite (Rn_get _ _ _ H).
  unfold mbind.
  destruct (meth1 Fo fop cst u a s) as [[r s']|p]; [|eauto].
  exists (length env), (env ++ [r]). split; [apply ext_snoc|]. rewrite app_length, Nat.add_1_r. split; [|reflexivity].
  unfold Rn. rewrite nth_error_app2, Nat.sub_diag by lia. reflexivity.
Qed.
Lemma okC_bin b env a1 a2 i1 i2 m :
  Rn env a1 i1 -> Rn env a2 i2 -> m = meth2 Fo fop cst b a1 a2 -> okC Rn env m (c_bin b i1 i2).
Proof.
  intros H1 H2 -> s k. unfold c_bin. cbn [run]. unfold mbind, mlift. rewrite (Rn_get _ _ _ H1), (Rn_get _ _ _ H2).
  destruct (meth2 Fo fop cst b a1 a2 s) as [[r s']|p]; [|eauto].
  exists (length env), (env ++ [r]). split; [apply ext_snoc|]. rewrite app_length, Nat.add_1_r. split; [|reflexivity].
  unfold Rn. rewrite nth_error_app2, Nat.sub_diag by lia. reflexivity.
Qed.
Lemma okC_nonzero {A B} (R : list V -> A -> B -> Prop) env a i m1 m2 c1 c2 :
  Rn env a i -> okC R env m1 c1 -> okC R env m2 c2 ->
  okC R env (if negb (f_eqb Fo (val a) (f_zero Fo)) then m1 else m2) (c_nonzero Fo i c1 c2).
Proof.
  intros H H1 H2 s k. unfold c_nonzero. cbn [run]. unfold mbind, mlift. rewrite (Rn_get _ _ _ H).
  destruct (negb _); [apply H1|apply H2].
Qed.
Lemma okC_unwrap {A B A' B'} (R : list V -> A -> B -> Prop) (R' : list V -> A' -> B' -> Prop) env x y g h :
  orel (R env) x y -> (forall a b, R env a b -> okC R' env (g a) (h b)) ->
  okC R' env (mbind (mlift (unwrap x)) g) (cbind (cget y) h).
Proof.
  intros H Hg. destruct x as [a|], y as [b|]; cbn in H; try contradiction.
  - intros s k. unfold mbind, mlift, cbind, cget, cret. cbn [unwrap]. apply (Hg a b H s k).
  - intros s k. cbn. eauto.
Qed.

Ltac old := solve [assumption | eapply Rn_ext; [|eassumption]; eauto 6 using ext_trans, ext_refl].
Ltac old_p := solve [assumption | eapply Rp_ext; [|eassumption]; eauto 6 using ext_trans, ext_refl].
Ltac st :=
  cbv beta;
  match goal with
  | |- okC _ _ _ (cbind (c_const _) _) => apply okC_const; intros ? ? ? ?; st
  | |- okC _ _ (mbind (mlift (unwrap _)) _) (cbind (cget _) _) =>
      eapply (okC_unwrap Rn); [eassumption|intros ? ? ?; st]
  | |- okC _ _ (mbind (if _ then _ else _) _) (cbind (c_nonzero _ _ _ _) _) =>
      eapply okC_bind; [apply okC_nonzero; [old|st|st]|intros ? ? ? ? ?; st]
  | |- okC _ _ (mbind _ _) (cbind _ _) => eapply okC_bind; [st|intros ? ? ? ? ?; st]
  | |- okC _ _ _ (c_un _ _) => eapply okC_un; [old|reflexivity]
  | |- okC _ _ _ (c_bin _ _ _) => eapply okC_bin; [old|old|reflexivity]
  | |- okC _ _ (mret _) (c_const _) => apply okC_zero
  | |- okC _ _ (mlift (Panic _)) cfail => apply okC_panic
  | _ => idtac
  end.

Lemma ok_z oc env a1 a2 i1 i2 :
  Rn env a1 i1 -> orel (Rn env) a2 i2 -> okC Rn env (z_rule fop oc a1 a2) (cz_rule oc i1 i2).
Proof.
  intros H1 H2. destruct oc; cbn [z_rule cz_rule]; st.
Qed.

Lemma orel_ext e e' a2 i2 : ext e e' -> orel (Rn e) a2 i2 -> orel (Rn e') a2 i2.
Proof. intros H. destruct a2, i2; cbn; auto. apply Rn_ext; auto. Qed.

Lemma ok_f oc env a1 a2 d1 d2 i1 i2 j1 j2 :
  Rn env a1 i1 -> orel (Rn env) a2 i2 -> Rn env d1 j1 -> orel (Rn env) d2 j2 ->
  okC Rn env (f_rule Fo fop cst val oc a1 a2 d1 d2) (cf_rule Fo oc i1 i2 j1 j2).
Proof.
  intros H1 H2 H3 H4.
  destruct oc; cbn [f_rule cf_rule]; cbv zeta; st.
Qed.

Lemma ok_op oc env x y i j :
  Rp env x i -> orel (Rp env) y j -> okC Rp env (o_fop Fo fop cst val oc x y) (c_op Fo oc i j).
Proof.
  intros [H1 H2] H3. unfold o_fop, c_op.
  assert (orel (Rn env) (option_map fst y) (option_map fst j)) as H4 by (destruct y, j; cbn in *; auto; apply H3).
  assert (orel (Rn env) (option_map snd y) (option_map snd j)) as H5 by (destruct y, j; cbn in *; auto; apply H3).
  eapply okC_bind; [apply ok_z; auto|]. intros e1 v i1 He1 Hv.
  eapply okC_bind; [apply ok_f; eauto using Rn_ext, orel_ext|]. intros e2 d i2 He2 Hd.
  apply okC_ret. split; cbn; eauto using Rn_ext.
Qed.

Lemma okC_cst {A B} (R : list V -> A -> B -> Prop) env c m h :
  (forall env' i, ext env env' -> Rp env' (o_cst Fo cst c) i -> okC R env' m (h i)) ->
  okC R env m (cbind (c_cst Fo c) h).
Proof.
  intros H s k.
  enough (okC R env m (cbind (c_const c) (fun v => cbind (c_const (f_zero Fo)) (fun d => h (v, d))))) as H0
    by (specialize (H0 s k); exact H0).
  st. apply H; [eauto using ext_trans|]. split; cbn; old.
Qed.

Ltac so :=
  cbv beta;
  match goal with
  | |- okC _ _ _ (cbind (c_cst _ _) _) => apply okC_cst; intros ? ? ? ?; so
  | |- okC _ _ (mbind _ _) (cbind _ _) => eapply okC_bind; [so|intros ? ? ? ? ?; so]
  | |- okC _ _ _ (c_op _ _ _ _) => apply ok_op; [old_p|cbn [orel]; try exact I; old_p]
  | |- okC _ _ (mlift (Panic _)) cfail => apply okC_panic
  | _ => idtac
  end.

Lemma ok_meth1 u env a i :
  Rp env a i -> okC Rp env (meth1 Fo (o_fop Fo fop cst val) (o_cst Fo cst) u a) (c_meth1 Fo u i).
Proof.
  intros H. destruct u; cbn [meth1 c_meth1];
    unfold m_neg, m_recip, m_powi, m_sqrt, m_exp2, m_log2, m_log10, m_cbrt, m_log, c_log,
      m_abs, m_exp, m_ln, m_sin, m_cos, m_tan, m_asin, m_acos, m_atan, m_powf, m_add, m_sub, m_mul, m_div; so.
Qed.
Lemma ok_meth2 b env x y i j :
  Rp env x i -> Rp env y j ->
  okC Rp env (meth2 Fo (o_fop Fo fop cst val) (o_cst Fo cst) b x y) (c_meth2 Fo b i j).
Proof.
  intros H1 H2. destruct b; cbn [meth2 c_meth2];
    unfold m_log, c_log, m_max, m_min, m_abs_sub, m_hypot, m_powi, m_sqrt,
      m_abs, m_ln, m_powf, m_add, m_sub, m_mul, m_div; so.
Qed.

Definition Rps (env : list V) (a : list (V * V)) (i : list reg) : Prop := Forall2 (Rp env) a i.
Lemma Rps_ext e e' a i : ext e e' -> Rps e a i -> Rps e' a i.
Proof. intros H. apply Forall2_impl. intros. eapply Rp_ext; eauto. Qed.

Lemma okC_get {A' B'} (R' : list V -> A' -> B' -> Prop) env x y i g h :
  Rps env x y -> (forall a b, Rp env a b -> okC R' env (g a) (h b)) ->
  okC R' env (mbind (mlift (get x i)) g) (cbind (cget (nth_error y i)) h).
Proof.
  intros H Hg. pose proof (Forall2_get _ _ _ i H) as Hi. unfold get in Hi.
  destruct (nth_error x i) as [a|] eqn:E1, (nth_error y i) as [b|] eqn:E2; try contradiction.
  - intros s k. unfold mbind, mlift, cbind, cget, cret, get. rewrite E1. apply (Hg a b Hi s k).
  - intros s k. unfold mbind, mlift, get. rewrite E1. cbn. eauto.
Qed.
Lemma Rps_snoc e x y a b : Rps e x y -> Rp e a b -> Rps e (x ++ [a]) (y ++ [b]).
Proof. intros. apply Forall2_app; auto. Qed.

Lemma all_ok env X I outs : Rps env X I ->
  match mapM (get X) outs, c_all I outs with
  | Ok r, Some q => Rps env r q
  | Panic _, None => True
  | _, _ => False end.
Proof.
  intros H. induction outs as [|i outs IH]; cbn [mapM c_all]; [constructor|].
  pose proof (Forall2_get _ _ _ i H) as Hi.
  destruct (get X i) as [a|p]; unfold get in Hi; destruct (nth_error I i) as [b|]; try contradiction; cbn [bind]; auto.
  destruct (mapM (get X) outs), (c_all I outs); try contradiction; cbn; auto.
  constructor; auto.
Qed.

Lemma ok_run p : forall env X I, Rps env X I ->
  okC Rps env (run Fo (o_fop Fo fop cst val) (o_cst Fo cst) (o_val val) p X) (c_run Fo p I).
Proof.
  induction p as [outs|c p IH|u a p IH|b a1 a2 p IH|a1 a2 a3 p IH|a k IH| ];
    intros env X I H; cbn [run c_run].
  - pose proof (all_ok env X I outs H) as HA.
    intros s k. unfold mlift. destruct (mapM (get X) outs) as [r|p], (c_all I outs) as [q|]; try contradiction.
    + exists q, env. cbn. auto using ext_refl.
    + cbn. eauto.
  - apply okC_cst. intros e i He Hi. apply IH. apply Rps_snoc; eauto using Rps_ext.
  - apply okC_get; auto. intros x i Hx. eapply okC_bind; [apply ok_meth1; eauto|].
    intros e r j He Hr. apply IH. apply Rps_snoc; eauto using Rps_ext.
  - apply okC_get; auto. intros x i Hx. apply okC_get; auto. intros y j Hy.
    eapply okC_bind; [apply ok_meth2; eauto|].
    intros e r q He Hr. apply IH. apply Rps_snoc; eauto using Rps_ext.
  - apply okC_get; auto. intros x i Hx. apply okC_get; auto. intros y j Hy. apply okC_get; auto. intros z l Hz.
    intros s k.
    enough (okC Rps env
      (mbind (o_fop Fo fop cst val Mul x (Some y)) (fun t => mbind (o_fop Fo fop cst val Add t (Some z))
         (fun r => run Fo (o_fop Fo fop cst val) (o_cst Fo cst) (o_val val) p (X ++ [r]))))
      (cbind (c_op Fo Mul i (Some j)) (fun t => cbind (c_op Fo Add t (Some l)) (fun r => c_run Fo p (I ++ [r]))))) as H0.
    { specialize (H0 s k). unfold m_mul_add, m_mul, m_add, mbind in *.
      destruct (o_fop Fo fop cst val Mul x (Some y) s) as [[t s1]|]; auto. }
    so. apply IH. apply Rps_snoc; [|old_p]. eapply Rps_ext; [|exact H]. eauto using ext_trans.
  - apply okC_get; auto. intros x i Hx s kk. cbn [run]. unfold mbind, mlift.
    rewrite (Rn_get _ _ _ (proj1 Hx)). unfold o_val. apply IH. auto.
  - apply okC_panic.
Qed.

Lemma ok_fun f : forall env X I, Rps env X I ->
  okC Rps env (feval Fo (o_fop Fo fop cst val) (o_cst Fo cst) (o_val val) f X) (c_fun Fo f I).
Proof.
  induction f as [n m p|n m p|fs IH] using func_ind'; intros env X I H; cbn [feval c_fun].
  - apply ok_run; auto.
  - rewrite <- (Forall2_length_eq _ _ _ H). unfold assert at 1.
    destruct (length X =? n); [|intros s k; cbn; eauto].
    intros s k. unfold mbind at 1. unfold mlift at 1.
    enough (okC Rps env (r <~ run Fo (o_fop Fo fop cst val) (o_cst Fo cst) (o_val val) p X ;;
                         _ <~ mlift (assert (length r =? m)) ;; mret r)
              (cbind (c_run Fo p I) (fun r => if length r =? m then cret r else cfail))) as H0 by apply H0.
    eapply okC_bind; [apply ok_run; eauto|]. intros e r q He Hr.
    rewrite <- (Forall2_length_eq _ _ _ Hr). unfold assert. destruct (length r =? m).
    + intros s1 k1. cbn. exists q, e. auto using ext_refl.
    + intros s1 k1. cbn. eauto.
  - revert env X I H. induction fs as [|g fs IHf]; intros env X I H.
    + apply okC_ret. auto.
    + inversion IH as [|? ? Hg Hfs]; subst. eapply okC_bind; [apply Hg; eauto|].
      intros e r q He Hr. apply IHf; auto.
Qed.

Lemma mapM_get_Rn env a i : Forall2 (Rn env) a i -> mapM (get env) i = Ok a.
Proof. induction 1 as [|x y l l' H1 H IH]; cbn; auto. rewrite (Rn_get _ _ _ H1). cbn. rewrite IH. reflexivity. Qed.

Theorem tangent_runs f n m (xs us : list V) s :
  length xs = n -> length us = n ->
  match o_eval Fo fop cst val f (combine xs us) s with
  | Ok (Y, s') => feval Fo fop cst val (tangent Fo n m f) (xs ++ us) s = Ok (map fst Y ++ map snd Y, s')
  | Panic _ => panics (feval Fo fop cst val (tangent Fo n m f) (xs ++ us) s)
  end.
Proof.
  intros Lx Lu. cbn [tangent feval].
  assert (Rps (xs ++ us) (combine xs us) (map (fun i => (i, n + i)) (seq 0 n))) as H.
  { assert (forall pre preu, length pre = length preu ->
      forall xs us, length xs = length us ->
      Forall2 (Rp ((pre ++ xs) ++ (preu ++ us))) (combine xs us) 
        (map (fun i => (i, length (pre ++ xs) + i)) (seq (length pre) (length xs)))) as HG.
    { clear. intros pre preu Lp xs. revert pre preu Lp. induction xs as [|x xs IH]; intros pre preu Lp [|u us] L; try discriminate; [constructor|].
      cbn [combine length seq map]. constructor.
      - split; unfold Rn; cbn [fst snd].
        + rewrite nth_error_app1 by (rewrite app_length; cbn; lia). rewrite nth_error_app2, Nat.sub_diag by lia. reflexivity.
        + rewrite nth_error_app2 by lia. replace (length (pre ++ x :: xs) + length pre - length (pre ++ x :: xs)) with (length preu) by lia.
          rewrite nth_error_app2, Nat.sub_diag by lia. reflexivity.
      - specialize (IH (pre ++ [x]) (preu ++ [u])). rewrite !app_length in IH. cbn [length] in IH.
        specialize (IH ltac:(lia) us ltac:(cbn in L; lia)).
        rewrite <- !app_assoc in IH. cbn [app] in IH.
        rewrite <- !app_assoc. rewrite Nat.add_1_r in IH. rewrite !app_length in *. cbn [length] in *.
        replace (length pre + S (length xs)) with (S (length pre) + length xs) by lia.
        replace (length pre + 1 + length xs) with (S (length pre) + length xs) in IH by lia. exact IH. }
    specialize (HG [] [] eq_refl xs us ltac:(lia)). cbn in HG. rewrite Lx in HG. exact HG. }
  pose proof (ok_fun f _ _ _ H s (fun r _ => Ret (map fst r ++ map snd r))) as HO. cbv beta in HO.
  rewrite app_length, Lx, Lu in HO. unfold o_eval.
  destruct (feval Fo (o_fop Fo fop cst val) (o_cst Fo cst) (o_val val) f (combine xs us) s) as [[Y s']|p].
  - destruct HO as (b & env' & _ & HR & ->). cbn [run]. unfold mlift.
    rewrite (mapM_get_Rn env' (map fst Y ++ map snd Y)); [reflexivity|].
    apply Forall2_app; clear - HR; induction HR as [|x y l l' [H1 H2] HR IH]; cbn; constructor; auto.
  - destruct HO as (q & ->). exists q. reflexivity.
Qed.
End HessComp.
