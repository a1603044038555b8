(** A function whose decisions at a point are stable is recorded alike near the point. *)
From Coq Require Import Reals Lra List Arith ZArith Bool Lia.
From Verif Require Import Base Float Operation Tape AContext Methods Function Spec Param Instances
  FunctionFacts ReplayFacts ApiFacts3 RealInst Approx DerivSpec DerivFacts DerivFacts2 LinearFacts Matrix Jacobian JacobianFacts Source SourceSpec DecideSpec Tapeless SamePath.
Import ListNotations.
Open Scope R_scope.

(** Return all variables instead of the outputs *)
Fixpoint probe {F} (p : prog F) (n : nat) : prog F :=
  match p with
  | Ret _ => Ret (seq 0 n)
  | LetC c p => LetC c (probe p (S n))
  | Let1 u a p => Let1 u a (probe p (S n))
  | Let2 b a1 a2 p => Let2 b a1 a2 (probe p (S n))
  | LetMulAdd a1 a2 a3 p => LetMulAdd a1 a2 a3 (probe p (S n))
  | Inspect a k => Abort
  | Abort => Abort
  end.

Lemma probe_straight {F} (p : prog F) : forall n, straight (probe p n).
Proof. induction p; intros n'; cbn; auto. Qed.

Lemma get_all {A} (e l : list A) : mapM (get (e ++ l)) (seq (length e) (length l)) = Ok l.
Proof.
  revert e. induction l as [|a l IH]; intros e; cbn [length seq mapM]; auto.
  unfold get at 1. rewrite nth_error_app2, Nat.sub_diag by lia. cbn.
  specialize (IH (e ++ [a])). rewrite app_length, <- app_assoc in IH. cbn in IH. rewrite Nat.add_1_r in IH. cbn [app].
  rewrite IH. reflexivity.
Qed.

Section Probe.
Context {F V St : Type} (Fo : Fops F) (fop : OpCode -> V -> option V -> M St V) (cst : F -> V) (val : V -> F).

Lemma probe_prefix p : forall env s R s', run Fo fop cst val (probe p (length env)) env s = Ok (R, s') -> exists zs, R = env ++ zs.
Proof.
  induction p as [outs|c p IH|u a p IH|b a1 a2 p IH|a1 a2 a3 p IH|a k IH| ]; intros env s R s'; cbn [probe run]; unfold mbind, mlift.
  - pose proof (get_all [] env) as G. cbn in G. rewrite G. intros [= <- <-]. exists []. now rewrite app_nil_r.
  - intros E. replace (S (length env)) with (length (env ++ [cst c])) in E by (rewrite app_length; cbn; lia).
    apply IH in E as (zs & ->). rewrite <- app_assoc. eauto.
  - destruct (get env a) as [x|]; [|discriminate]. destruct (meth1 _ _ _ u x s) as [[r s1]|]; [|discriminate].
    intros E. replace (S (length env)) with (length (env ++ [r])) in E by (rewrite app_length; cbn; lia).
    apply IH in E as (zs & ->). rewrite <- app_assoc. eauto.
  - destruct (get env a1) as [x|]; [|discriminate]. destruct (get env a2) as [y|]; [|discriminate].
    destruct (meth2 _ _ _ b x y s) as [[r s1]|]; [|discriminate].
    intros E. replace (S (length env)) with (length (env ++ [r])) in E by (rewrite app_length; cbn; lia).
    apply IH in E as (zs & ->). rewrite <- app_assoc. eauto.
  - destruct (get env a1) as [x|]; [|discriminate]. destruct (get env a2) as [y|]; [|discriminate]. destruct (get env a3) as [z|]; [|discriminate].
    destruct (m_mul_add _ x y z s) as [[r s1]|]; [|discriminate].
    intros E. replace (S (length env)) with (length (env ++ [r])) in E by (rewrite app_length; cbn; lia).
    apply IH in E as (zs & ->). rewrite <- app_assoc. eauto.
  - discriminate.
  - discriminate.
Qed.

Lemma probe_run p : straight p -> forall env s ys s', run Fo fop cst val p env s = Ok (ys, s') ->
  exists R, run Fo fop cst val (probe p (length env)) env s = Ok (R, s').
Proof.
  induction p as [outs|c p IH|u a p IH|b a1 a2 p IH|a1 a2 a3 p IH|a k IH| ]; intros ST env s ys s'; cbn [probe run straight] in *; unfold mbind, mlift; try contradiction.
  - pose proof (get_all [] env) as G. cbn in G. rewrite G. destruct (mapM _ outs); [|discriminate]. intros [= <- <-]. eauto.
  - intros E. replace (S (length env)) with (length (env ++ [cst c])) by (rewrite app_length; cbn; lia). eauto.
  - destruct (get env a) as [x|]; [|discriminate]. destruct (meth1 _ _ _ u x s) as [[r s1]|]; [|discriminate].
    intros E. replace (S (length env)) with (length (env ++ [r])) by (rewrite app_length; cbn; lia). eauto.
  - destruct (get env a1) as [x|]; [|discriminate]. destruct (get env a2) as [y|]; [|discriminate].
    destruct (meth2 _ _ _ b x y s) as [[r s1]|]; [|discriminate].
    intros E. replace (S (length env)) with (length (env ++ [r])) by (rewrite app_length; cbn; lia). eauto.
  - destruct (get env a1) as [x|]; [|discriminate]. destruct (get env a2) as [y|]; [|discriminate]. destruct (get env a3) as [z|]; [|discriminate].
    destruct (m_mul_add _ x y z s) as [[r s1]|]; [|discriminate].
    intros E. replace (S (length env)) with (length (env ++ [r])) by (rewrite app_length; cbn; lia). eauto.
  - discriminate.
Qed.
End Probe.

Lemma gets_len {A B} (e1 : list A) (e2 : list B) l ys : length e1 = length e2 -> mapM (get e2) l = Ok ys -> exists zs, mapM (get e1) l = Ok zs.
Proof.
  intros L. revert ys. induction l as [|i l IH]; intros ys; cbn [mapM]; eauto.
  unfold get at 1 3. destruct (nth_error e2 i) as [b|] eqn:E; [|discriminate]. cbn.
  destruct (mapM (get e2) l) as [zs|]; [|discriminate]. intros _. destruct (IH zs eq_refl) as (us & ->).
  destruct (nth_error e1 i) as [a|] eqn:E1; cbn; eauto.
  apply nth_error_None in E1. assert (i < length e2)%nat by (apply nth_error_Some; congruence). lia.
Qed.

(** The same operations, also with the probe *)
Lemma probe_back {F V St V2 St2} (Fo : Fops F) (fop : OpCode -> V -> option V -> M St V) cst val
  (fop2 : OpCode -> V2 -> option V2 -> M St2 V2) cst2 val2 p : straight p ->
  forall env s R s' env2 s2 ys2 s2', length env = length env2 ->
  run Fo fop cst val (probe p (length env)) env s = Ok (R, s') -> run Fo fop2 cst2 val2 p env2 s2 = Ok (ys2, s2') ->
  exists ys, run Fo fop cst val p env s = Ok (ys, s').
Proof.
  induction p as [outs|c p IH|u a p IH|b a1 a2 p IH|a1 a2 a3 p IH|a k IH| ]; intros ST env s R s' env2 s2 ys2 s2' L; cbn [probe run straight] in *; unfold mbind, mlift; try contradiction.
  - pose proof (get_all [] env) as G. cbn in G. rewrite G. intros [= <- <-]. destruct (mapM _ outs) as [z|] eqn:E; [|discriminate]. intros _.
    destruct (gets_len env env2 outs z L E) as (zs & ->). eauto.
  - intros E E2. replace (S (length env)) with (length (env ++ [cst c])) in E by (rewrite app_length; cbn; lia).
    eapply IH; eauto. rewrite !app_length; cbn; lia.
  - destruct (get env a) as [x|]; [|discriminate]. destruct (meth1 Fo fop cst u x s) as [[r s1]|]; [|discriminate].
    destruct (get env2 a) as [x2|]; [|discriminate]. destruct (meth1 Fo fop2 cst2 u x2 s2) as [[r2 s12]|]; [|discriminate].
    intros E E2. replace (S (length env)) with (length (env ++ [r])) in E by (rewrite app_length; cbn; lia).
    eapply IH; eauto. rewrite !app_length; cbn; lia.
  - destruct (get env a1) as [x|]; [|discriminate]. destruct (get env a2) as [y|]; [|discriminate].
    destruct (meth2 Fo fop cst b x y s) as [[r s1]|]; [|discriminate].
    destruct (get env2 a1) as [x2|]; [|discriminate]. destruct (get env2 a2) as [y2|]; [|discriminate].
    destruct (meth2 Fo fop2 cst2 b x2 y2 s2) as [[r2 s12]|]; [|discriminate].
    intros E E2. replace (S (length env)) with (length (env ++ [r])) in E by (rewrite app_length; cbn; lia).
    eapply IH; eauto. rewrite !app_length; cbn; lia.
  - destruct (get env a1) as [x|]; [|discriminate]. destruct (get env a2) as [y|]; [|discriminate]. destruct (get env a3) as [z|]; [|discriminate].
    destruct (m_mul_add fop x y z s) as [[r s1]|]; [|discriminate].
    destruct (get env2 a1) as [x2|]; [|discriminate]. destruct (get env2 a2) as [y2|]; [|discriminate]. destruct (get env2 a3) as [z2|]; [|discriminate].
    destruct (m_mul_add fop2 x2 y2 z2 s2) as [[r2 s12]|]; [|discriminate].
    intros E E2. replace (S (length env)) with (length (env ++ [r])) in E by (rewrite app_length; cbn; lia).
    eapply IH; eauto. rewrite !app_length; cbn; lia.
  - discriminate.
Qed.

Notation vrun := (run Rops (v_fop Rops) (fun c => c) (fun v => v)).

Lemma near_weaken e e' l l' : e <= e' -> near_by e l l' -> near_by e' l l'.
Proof. intros H N. induction N; constructor; auto. lra. Qed.
Lemma near_app e l m l' m' : length l = length l' -> near_by e (l ++ m) (l' ++ m') -> near_by e l l'.
Proof.
  revert l'. induction l as [|a l IH]; intros [|b l'] L N; try discriminate; [constructor|].
  cbn in *. inversion N; subst. constructor; auto. apply IH; auto.
Qed.
Lemma near_vars e vs vs' xs l : near_by e vs vs' -> p_vars vs xs = Some l -> exists l', p_vars vs' xs = Some l' /\ near_by e l l'.
Proof.
  intros N. revert l. induction xs as [|x xs IH]; intros l; cbn.
  - intros [= <-]. exists []. split; auto. constructor.
  - destruct (nth_error vs x) as [v|] eqn:E; [|discriminate]. destruct (p_vars vs xs) as [r|]; [|discriminate]. intros [= <-].
    destruct (IH r eq_refl) as (r' & -> & NR).
    assert (exists v', nth_error vs' x = Some v' /\ Rabs (v' - v) < e) as (v' & -> & Hv).
    { clear -N E. revert x E. induction N as [|a b l l' H N IH]; intros [|x]; cbn; try discriminate.
      - intros [= <-]. eauto.
      - apply IH. }
    exists (v' :: r'). split; auto. constructor; auto.
Qed.
Lemma resolve_looks xs : forall T vs l, p_vars vs xs = Some l -> resolve Rops (looks xs T) vs = resolve Rops (T l) vs.
Proof.
  induction xs as [|x xs IH]; intros T vs l; cbn.
  - intros [= <-]. auto.
  - unfold get. destruct (nth_error vs x) as [v|]; [|discriminate]. destruct (p_vars vs xs) as [r|] eqn:E; [|discriminate]. intros [= <-].
    apply (IH (fun l => T (v :: l)) vs r E).
Qed.

(** The same path as long as all variables stay near. *)
Lemma stable_path p vs : stable p vs -> forall W, vrun (probe (resolve Rops p vs) (length vs)) vs tt = Ok (W, tt) ->
  exists e, 0 < e /\ forall vs' R', length vs' = length vs ->
    vrun (probe (resolve Rops p vs) (length vs')) vs' tt = Ok (R', tt) -> near_by e W R' ->
    resolve Rops p vs' = resolve Rops p vs.
Proof.
  induction 1 as [outs vs|vs|c p vs S IH|u a p vs S IH|b a1 a2 p vs S IH|a1 a2 a3 p vs S IH|xs T vs l e0 PV He0 HT S IH]; intros W.
  - exists 1. split; [lra|]. reflexivity.
  - exists 1. split; [lra|]. reflexivity.
  - cbn [resolve probe run]. intros E. replace (Datatypes.S (length vs)) with (length (vs ++ [c])) in E by (rewrite app_length; cbn; lia).
    destruct (IH W E) as (e & He & H). exists e. split; auto. intros vs' R' L E' N. f_equal.
    apply (H _ R'); auto; [rewrite !app_length; cbn; lia|].
    replace (length (vs' ++ [c])) with (Datatypes.S (length vs')) by (rewrite app_length; cbn; lia). exact E'.
  - cbn [resolve probe run]. unfold mbind, mlift, get. destruct (nth_error vs a) as [x|] eqn:Ex; [|discriminate]. cbn [bind].
    unfold num1 in *. destruct (meth1 Rops (v_fop Rops) (fun c => c) u x tt) as [[r []]|] eqn:Em; [|discriminate].
    intros E. replace (Datatypes.S (length vs)) with (length (vs ++ [r])) in E by (rewrite app_length; cbn; lia).
    destruct (IH x r eq_refl) with (W := W) as (e & He & H); auto; [rewrite Em; auto|]. exists e. split; auto. intros vs' R' L.
    destruct (nth_error vs' a) as [x'|]; [|discriminate]. cbn [bind].
    destruct (meth1 Rops (v_fop Rops) (fun c => c) u x' tt) as [[r' []]|] eqn:Em'; [|discriminate]. intros E' N. f_equal.
    apply (H _ R'); auto; [rewrite !app_length; cbn; lia|].
    replace (length (vs' ++ [r'])) with (Datatypes.S (length vs')) by (rewrite app_length; cbn; lia). exact E'.
  - cbn [resolve probe run]. unfold mbind, mlift, get. destruct (nth_error vs a1) as [x|] eqn:Ex; [|discriminate]. cbn [bind].
    destruct (nth_error vs a2) as [y|] eqn:Ey; [|discriminate]. cbn [bind].
    unfold num2 in *. destruct (meth2 Rops (v_fop Rops) (fun c => c) b x y tt) as [[r []]|] eqn:Em; [|discriminate].
    intros E. replace (Datatypes.S (length vs)) with (length (vs ++ [r])) in E by (rewrite app_length; cbn; lia).
    destruct (IH x y r eq_refl eq_refl) with (W := W) as (e & He & H); auto; [rewrite Em; auto|]. exists e. split; auto. intros vs' R' L.
    destruct (nth_error vs' a1) as [x'|]; [|discriminate]. cbn [bind]. destruct (nth_error vs' a2) as [y'|]; [|discriminate]. cbn [bind].
    destruct (meth2 Rops (v_fop Rops) (fun c => c) b x' y' tt) as [[r' []]|] eqn:Em'; [|discriminate]. intros E' N. f_equal.
    apply (H _ R'); auto; [rewrite !app_length; cbn; lia|].
    replace (length (vs' ++ [r'])) with (Datatypes.S (length vs')) by (rewrite app_length; cbn; lia). exact E'.
  - cbn [resolve probe run]. unfold mbind, mlift, get. destruct (nth_error vs a1) as [x|] eqn:Ex; [|discriminate]. cbn [bind].
    destruct (nth_error vs a2) as [y|] eqn:Ey; [|discriminate]. cbn [bind]. destruct (nth_error vs a3) as [z|] eqn:Ez; [|discriminate]. cbn [bind].
    change (m_mul_add (v_fop Rops) x y z tt) with (@Ok (R * unit) (x * y + z, tt)). cbn iota beta.
    intros E. replace (Datatypes.S (length vs)) with (length (vs ++ [x * y + z])) in E by (rewrite app_length; cbn; lia).
    destruct (IH x y z eq_refl eq_refl eq_refl) with (W := W) as (e & He & H); auto. exists e. split; auto. intros vs' R' L.
    destruct (nth_error vs' a1) as [x'|]; [|discriminate]. cbn [bind]. destruct (nth_error vs' a2) as [y'|]; [|discriminate]. cbn [bind].
    destruct (nth_error vs' a3) as [z'|]; [|discriminate]. cbn [bind].
    change (m_mul_add (v_fop Rops) x' y' z' tt) with (@Ok (R * unit) (x' * y' + z', tt)). cbn iota beta. intros E' N. f_equal.
    apply (H _ R'); auto; [rewrite !app_length; cbn; lia|].
    replace (length (vs' ++ [x' * y' + z'])) with (Datatypes.S (length vs')) by (rewrite app_length; cbn; lia). exact E'.
  - rewrite (resolve_looks xs T vs l PV). intros E. destruct (IH W E) as (e & He & H). exists (Rmin e0 e). split; [apply Rmin_glb_lt; auto|].
    intros vs' R' L E' N.
    destruct (probe_prefix _ _ _ _ _ _ _ _ _ E) as (zs & ->). destruct (probe_prefix _ _ _ _ _ _ _ _ _ E') as (zs' & ->).
    destruct (near_vars _ vs vs' xs l (near_app _ _ _ _ _ (eq_sym L) N) PV) as (l' & PV' & NL).
    rewrite (resolve_looks xs T vs' l' PV'), HT.
    + apply (H vs' (vs' ++ zs')); auto. eapply near_weaken; [apply Rmin_r|exact N].
    + eapply near_weaken; [apply Rmin_l|exact NL].
Qed.

Lemma good_near e (zs : list (V3 (T := list R))) : 0 < e -> Forall (good nrm1) zs ->
  exists d, 0 < d /\ forall h, nrm1 h < d -> near_by e (map v3a zs) (map (fun z => v3p z h) zs).
Proof.
  intros He H. induction H as [|z zs G H (d & Hd & IH)].
  - exists 1. split; [lra|]. constructor.
  - destruct (bo_small _ nrm1_pos _ (approx_bo _ _ _ _ G) e He) as (d' & Hd' & B).
    exists (Rmin d d'). split; [apply Rmin_glb_lt; auto|]. intros h Hh. cbn. constructor.
    + apply B. eapply Rlt_le_trans; [exact Hh|apply Rmin_r].
    + apply IH. eapply Rlt_le_trans; [exact Hh|apply Rmin_l].
Qed.

Lemma vadd_zeros x : vadd x (map (fun _ => 0) x) = x.
Proof. induction x; cbn; auto. unfold vadd in *. cbn. f_equal; auto. ring. Qed.

Lemma r_fop_val oc a b s v s' : arity_ok oc b -> r_fop oc a b s = Ok (v, s') ->
  zero_order_value Rops oc (fst a) (option_map fst b) = Ok (fst v).
Proof.
  intros _. unfold r_fop. destruct (zero_order_value Rops oc (fst a) (option_map fst b)) as [z|]; [|discriminate].
  intros [= <- <-]. reflexivity.
Qed.

Theorem stable_alike n m p f x w t w' :
  f = Simple n m p \/ f = AdvFn n m p ->
  fn_tape Rops f x w = Ok (t, w') -> regular f x -> stable p x -> alike_near f x.
Proof.
  intros Hf T RG ST.
  destruct (fn_tape_fresh Rops f x w t w' T) as (_ & (y & Ey & _ & _) & _ & _).
  assert (exists ys, vrun (resolve Rops p x) x tt = Ok (ys, tt)) as (ys & Er).
  { pose proof (v_eval_resolve Rops f x) as V. rewrite V in Ey. destruct Hf as [-> | ->]; unfold v_eval in Ey; cbn [resolve_f feval] in Ey.
    - destruct (vrun _ x tt) as [[ys []]|]; [eauto|discriminate].
    - unfold mbind, mlift in Ey. destruct (assert _) as [[]|]; [|discriminate]. cbn in Ey.
      destruct (vrun _ x tt) as [[ys []]|]; [eauto|discriminate]. }
  assert (vrun p x tt = Ok (ys, tt)) as EX.
  { rewrite (run_resolve Rops (v_fop Rops) (fun c => c) (fun v => v)); [rewrite map_id; exact Er| |reflexivity].
    intros oc a b s r s' _. unfold v_fop, mlift. destruct b; cbn [option_map]; destruct (zero_order_value Rops oc a _); intros [= <- <-]; reflexivity. }
  destruct (probe_run Rops _ _ _ _ (resolve_straight Rops p x) _ _ _ _ Er) as (W & EP).
  set (q := probe (resolve Rops p x) (length x)) in *.
  destruct (stable_path p x ST W EP) as (e & He & H).
  assert (v_eval Rops (Simple n m q) x = Ok W) as VP by (unfold v_eval; cbn [feval]; rewrite EP; reflexivity).
  assert (exists zs, feval Rops c_fop c_cst v3a (Simple n m q) (fam 0 x) tt = Ok (zs, tt)) as (zs & Ez).
  { pose proof (c_v (Simple n m q) (fam 0 x) (map (fun _ => 0) x) (probe_straight _ _)) as C.
    destruct (feval Rops c_fop c_cst v3a (Simple n m q) (fam 0 x) tt) as [[zs []]|pp]; eauto.
    rewrite fam_p in C by (rewrite map_length; lia). cbn [skipn] in C. rewrite vadd_zeros in C. congruence. }
  assert (regular (Simple n m q) x) as RQ.
  { intros us P E. cbn [feval] in E. unfold q in E.
    replace (length x) with (length (map (fun a : Coq.Reals.Rdefinitions.R => (a, false)) x)) in E by apply map_length.
    destruct (probe_back Rops r_fop _ fst (v_fop Rops) (fun c => c) (fun v => v) _ (resolve_straight Rops p x) _ _ _ _ x tt ys tt (map_length _ _) E Er) as (us' & E2).
    pose proof (regular_resolve f x RG) as RR. destruct Hf as [-> | ->]; cbn [resolve_f] in RR.
    - apply (RR us'). exact E2.
    - unfold regular in RR. cbn [feval] in RR. unfold v_eval in Ey. cbn [feval] in Ey. unfold mbind, mlift in *. rewrite map_length in RR.
      destruct (assert (length x =? n)) as [[]|]; [|discriminate]. cbn in RR, Ey. rewrite E2 in RR.
      assert (map fst us' = ys) as EU.
      { pose proof (feval_values Rops r_fop (fun c => (c, true)) fst r_fop_val (fun c => eq_refl) (Simple n m (resolve Rops p x)) _ _ _ _ E2) as V.
        rewrite map_map, map_id in V. unfold v_eval in V. cbn [feval] in V. rewrite Er in V. cbn in V. congruence. }
      rewrite EX in Ey. cbn in Ey. assert (length us' = length ys) as LU by (rewrite <- EU; symmetry; apply map_length).
      rewrite LU in RR. destruct (assert (length ys =? m)) as [[]|]; [|discriminate]. apply (RR us'). reflexivity. }
  pose proof (family_approx nrm1 nrm1_pos (Simple n m q) x (fam 0 x) RQ (fam_a 0 x) (fam_good 0 x) zs Ez) as G.
  assert (map v3a zs = W) as EA.
  { pose proof (feval_values Rops c_fop c_cst v3a c_fop_val (fun c => eq_refl) _ (fam 0 x) tt zs tt Ez) as V. rewrite fam_a in V. congruence. }
  destruct (good_near e zs He G) as (d & Hd & N). exists d. split; auto. intros h L Nh.
  eapply path_alike; [exact T|apply vadd_length; auto|]. right. unfold same_path.
  assert (resolve Rops p (vadd x h) = resolve Rops p x) as E.
  { apply (H (vadd x h) (map (fun z => v3p z h) zs)).
    - apply vadd_length; auto.
    - pose proof (c_v (Simple n m q) (fam 0 x) h (probe_straight _ _)) as C. rewrite Ez, fam_p in C by lia. cbn [skipn] in C.
      unfold v_eval in C. cbn [feval] in C. unfold q in C. rewrite vadd_length by auto.
      destruct (vrun _ (vadd x h) tt) as [[u []]|]; [|discriminate]. cbn in C. congruence.
    - rewrite <- EA. apply N; auto. }
  destruct Hf as [-> | ->]; cbn [resolve_f]; now rewrite E.
Qed.

Lemma compare_stable i j p q vs a b :
  nth_error vs i = Some a -> nth_error vs j = Some b -> a <> b ->
  stable (if Rltb a b then p else q) vs -> stable (compare i j p q) vs.
Proof.
  intros Ei Ej Hn S. unfold compare.
  assert (0 < Rabs (b - a)) as HP by (apply Rabs_pos_lt; lra).
  apply (stable_test [i; j] _ vs [a; b] (Rabs (b - a) / 2)); auto; [cbn; now rewrite Ei, Ej|lra|].
  intros l' N. inversion N as [|? a' ? l1 H1 N1]; subst. inversion N1 as [|? b' ? l2 H2 N2]; subst. inversion N2; subst.
  assert (Rltb a' b' = Rltb a b) as ->; auto.
  apply Rabs_def2 in H1, H2. destruct (Rtotal_order a b) as [L|[L|L]]; [|contradiction|].
  - rewrite (Rabs_pos_eq (b - a)) in H1, H2 by lra. assert (a' < b') as L' by lra.
    apply Rltb_true in L, L'. congruence.
  - rewrite (Rabs_left (b - a)) in H1, H2 by lra.
    destruct (Rltb a' b') eqn:E1; [apply Rltb_true in E1; lra|]. destruct (Rltb a b) eqn:E2; [apply Rltb_true in E2; lra|]. auto.
Qed.

Theorem stable_derivative n m p f x w t w' :
  f = Simple n m p \/ f = AdvFn n m p ->
  fn_tape Rops f x w = Ok (t, w') -> regular f x -> stable p x -> no_abs t ->
  forall dx, length dx = length x ->
  exists dy, tape_forward Rops t dx = Ok dy /\ length dy = length (outputs f x) /\
    forall k, (k < length dy)%nat ->
      derivable_pt_lim (fun s => nth k (outputs f (vadd x (vscal s dx))) 0) 0 (nth k dy 0).
Proof.
  intros Hf T RG ST NA. apply (alike_derivative f x w t w'); auto. eapply stable_alike; eauto.
Qed.

Theorem stable_jacobians red1 red2 n m p f x w t w' :
  rayon red1 -> rayon red2 -> f = Simple n m p \/ f = AdvFn n m p -> length x = n ->
  fn_tape Rops f x w = Ok (t, w') -> num_deps t = m ->
  regular f x -> stable p x -> no_abs t ->
  exists J, jacobian_forward Rops red1 f x w = Ok J /\
    (NoDup (t_deps t) -> jacobian_reverse Rops red2 t = Ok J) /\
    m_rows J = m /\ m_cols J = n /\
    forall i j, (i < m)%nat -> (j < n)%nat ->
      derivable_pt_lim (fun s => nth i (outputs f (update x j (nth j x 0 + s))) 0) 0 (ent Rops J i j).
Proof.
  intros H1 H2 Hf L T Dm RG ST NA.
  apply (alike_jacobians red1 red2 f x w t w' n m); auto; try (destruct Hf as [-> | ->]; reflexivity).
  eapply stable_alike; eauto.
Qed.

(** x * x, written with a special case for 1 *)
Definition ex_special : func R :=
  Simple 1 1 (LetC 1 (Let2 BMul 0 0 (compare 0 1 (Ret [2%nat]) (compare 1 0 (Ret [2%nat]) (Ret [1%nat]))))).
Lemma special_square s : outputs ex_special [s] = [s * s].
Proof.
  assert (v_eval Rops ex_special [s] = Ok [s * s]) as V.
  { unfold v_eval, ex_special, compare. cbn -[Rltb Rmult]. destruct (Rltb s 1) eqn:E1; [reflexivity|]. cbn -[Rltb Rmult]. destruct (Rltb 1 s) eqn:E2; [reflexivity|].
    assert (~ s < 1) as H1 by (intros H; apply Rltb_true in H; congruence). assert (~ 1 < s) as H2 by (intros H; apply Rltb_true in H; congruence).
    replace s with 1 by lra. cbn. f_equal. f_equal. ring. }
  unfold outputs. rewrite eval_float_v, V. reflexivity.
Qed.
Lemma special_wrong :
  exists t w', fn_tape Rops ex_special [1] world0 = Ok (t, w') /\ regular ex_special [1] /\ no_abs t /\
    (forall s, outputs ex_special [s] = [s * s]) /\ tape_forward Rops t [1] = Ok [0] /\
    derivable_pt_lim (fun s => nth 0 (outputs ex_special (vadd [1] (vscal s [1]))) 0) 0 2.
Proof.
  assert (Rltb 1 1 = false) as LT by (destruct (Rltb 1 1) eqn:E; auto; apply Rltb_true in E; lra).
  assert (resolve_f Rops ex_special [1] = @Simple R 1 1 (LetC 1 (Let2 BMul 0 0 (Ret [1%nat])))) as RS.
  { cbn -[Rltb]. rewrite LT. cbn -[Rltb]. rewrite LT. reflexivity. }
  rewrite fn_tape_resolve, RS. rtape. do 2 eexists. split; [reflexivity|]. split; [|split; [reflexivity|split; [exact special_square|split]]].
  - intros ys P H. cbn -[Rltb] in H. rewrite LT in H. cbn -[Rltb] in H. rewrite LT in H. cbn in H. injection H as _ <-. cbn. auto.
  - reflexivity.
  - apply (d_ext (fun s => (1 + s) * (1 + s))); [intros s; unfold vadd, vscal; cbn [map combine fst snd]; rewrite special_square; cbn [nth]; ring|].
    replace 2 with (1 * (1 + 0) + (1 + 0) * 1) by ring.
    assert (derivable_pt_lim (fun s => 1 + s) 0 1) as D.
    { pose proof (derivable_pt_lim_plus (fun _ => 1) (fun s => s) 0 0 1 (derivable_pt_lim_const 1 0) (derivable_pt_lim_id 0)) as D. rewrite Rplus_0_l in D. exact D. }
    apply (derivable_pt_lim_mult (fun s => 1 + s) (fun s => 1 + s) 0 1 1 D D).
Qed.
