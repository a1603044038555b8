(** Derivatives of any order by nested AFloats: functions without provisos, and the failing cases. *)
From Coq Require Import Reals Lra List Arith ZArith Bool Lia SpecFloat.
From Verif Require Import Base Float Operation Tape AContext Methods Function Spec Param TapeFacts
  Instances FunctionFacts ReplayFacts ApiFacts3 Replay2 RealInst Approx DerivSpec DerivFacts
  LinearFacts DerivFacts2 Nested NestedSpec NestedFacts NestedMain FloatInst Nest NestSpec NestFacts NestMain.
Import ListNotations.
Open Scope R_scope.

Section Entire.
Context (k : nat).
Notation op := (nk_fop k).
Notation cst := (fun c => (ncst Rops (S k) c, true)).
Notation val := (fun p : nest R (S k) * bool => nval (S k) (fst p)).

Definition harmless {A} (m : M Prop A) : Prop := forall P r P', m P = Ok (r, P') -> P -> P'.
Lemma harmless_bind {A B} (m : M Prop A) (c : A -> M Prop B) :
  harmless m -> (forall a, harmless (c a)) -> harmless (mbind m c).
Proof.
  intros Hm Hc P r P'. unfold mbind. destruct (m P) as [[a P1]|] eqn:E; [|discriminate].
  intros E2 HP. eapply Hc; [apply E2|]. eapply Hm; eauto.
Qed.
Lemma harmless_lift {A} (m : res A) : harmless (mlift m).
Proof. intros P r P'. unfold mlift. destruct m; [|discriminate]. intros [= _ <-]. auto. Qed.
Lemma harmless_op oc x y :
  oc = Add \/ oc = Sub \/ oc = Mul \/ oc = Sin \/ oc = Cos \/ oc = Exp -> harmless (op oc x y).
Proof.
  intros H P r P'. unfold nk_fop. destruct (d_fop _ _ _ _ _) as [[r0 []]|]; [|discriminate].
  intros [= _ <-] HP. split; auto. destruct H as [->|[->|[->|[->|[->| ->]]]]]; exact I.
Qed.

Ltac hstep :=
  cbn beta; match goal with
  | |- harmless (mbind _ _) => apply harmless_bind; [hstep|intros; hstep]
  | |- harmless (mlift _) => apply harmless_lift
  | _ => auto
  end.
Lemma entire_run p : entire p -> forall env, harmless (run Rops op cst val p env).
Proof.
  induction p as [outs|c p IH|u a p IH|b a1 a2 p IH|a1 a2 a3 p IH|a c IH| ];
    intros He env; cbn [run entire] in *; try (hstep; fail).
  - destruct He as [Hu He]. hstep.
    destruct Hu as [->|[->|[->| ->]]]; cbn [meth1]; unfold m_neg, m_sub, m_mul, m_sin, m_cos, m_exp;
      hstep; apply harmless_op; auto 10.
  - destruct He as [Hu He]. hstep.
    destruct Hu as [->|[->| ->]]; cbn [meth2]; unfold m_add, m_sub, m_mul; apply harmless_op; auto.
  - hstep. unfold m_mul_add, m_add, m_mul; hstep; apply harmless_op; auto.
Qed.

Lemma entire_feval f : entire_f f -> forall env, harmless (feval Rops op cst val f env).
Proof.
  induction f as [n m p|n m p|fs IH] using func_ind'; intros He env; cbn [feval entire_f] in *.
  - apply entire_run; auto.
  - apply harmless_bind; [hstep|intros].
    apply harmless_bind; [apply entire_run; auto|intros]. apply harmless_bind; [hstep|intros].
    intros P r P' [= _ <-]. auto.
  - revert env. induction fs as [|g fs IHf]; intros env; [intros P r P' [= _ <-]; auto|].
    inversion IH as [|? ? Hg Hfs]; subst. destruct He as [He1 He2].
    apply harmless_bind; [apply Hg; auto|]. intros r. apply IHf; auto.
Qed.

Lemma entire_regular f X : entire_f f -> regular_n k f X.
Proof. intros He ys P E. eapply (entire_feval f He); [apply E|exact I]. Qed.
End Entire.

Theorem nest_entire k f (X ys : list (nest R (S k))) :
  same_branches_near f (map (nval (S k)) X) -> entire_f f ->
  nest_eval Rops k f X = Ok ys ->
  length ys = length (outputs f (map (nval (S k)) X)) /\
  forall j y, nth_error ys j = Some y ->
    derivs (S k) y (fun e => nth j (outputs f (map (fun a => point (S k) a e) X)) 0).
Proof. intros HB He. apply nest_derivatives; auto. apply entire_regular. auto. Qed.

(** *** Seeds are settled *)
Lemma seed_settled K x : settled K (seed K x).
Proof.
  induction K as [|k IH]; [exact I|]. split; auto. cbn [seed snd]. rewrite nval_cst. lra.
Qed.

(** *** tan at 0 *)
Definition nx_tan {F : Type} : func F := AdvFn 1 1 (Let1 UTan 0 (Ret [1]%nat)).

Lemma nx_tan_out s : outputs nx_tan [s] = [tan s].
Proof. reflexivity. Qed.

Lemma nx_cos : f_cos (NF 2) (seed 2 0) = ((1, 0), (0, -1)).
Proof. cbn. rewrite sin_0, cos_0. repeat (f_equal; try ring). Qed.
Lemma nx_powi : f_powi (NF 2) (f_cos (NF 2) (seed 2 0)) 2 = NC 2 1.
Proof.
  rewrite nx_cos, n_powi, powf_S, !nc_S. cbn [fst snd nval].
  assert (Reqb 0 0 = true) as E0 by (apply Reqb_true; reflexivity).
  change (ncst Rops 0 0) with 0. rewrite E0. cbn [negb].
  change (f_powf (NF 1) (1, 0) (NC 0 2, 0)) with (zk 1 Powf (NC 1 1) (option_map (ncst Rops 1) (Some 2))).
  rewrite zk_cst by reflexivity.
  assert (zv Powf 1 (Some 2) = 1) as -> by (change (Rpowf 1 2 = 1); rewrite (Rpowf_int 1 2); cbn [powerRZ]; change (Pos.to_nat 2) with 2%nat; cbn [pow]; ring).
  cbn. repeat (f_equal; try ring).
Qed.
Lemma nx_tan_nested : exists y,
  nest_eval Rops 2 nx_tan [seed 3 0] = Ok [y] /\ comp 3 [true; true; true] y = 0.
Proof.
  eexists. split; [rewrite nest_eval_eq; reflexivity|].
  change (comp 2 [true; true] (fk 2 Tan (seed 2 0) None (NC 2 1) None) = 0).
  unfold fk. cbn [first_order_value unwrap bind option_map]. rewrite nx_powi, n_one.
  assert (f_div (NF 2) (NC 2 1) (NC 2 1) = NC 2 1) as ->.
  { change (zk 2 Div (NC 2 1) (option_map (ncst Rops 2) (Some 1)) = NC 2 1). rewrite zk_cst by reflexivity.
    f_equal. cbn. field. }
  change (comp 2 [true; true] (zk 2 Mul (NC 2 1) (option_map (ncst Rops 2) (Some 1))) = 0).
  rewrite zk_cst by reflexivity. rewrite !nc_S. reflexivity.
Qed.

Lemma tan_d1 s : -1 < s < 1 -> derivable_pt_lim tan s (1 + tan s * tan s).
Proof.
  intros H. pose proof PI2_1. assert (0 < cos s) as Hc by (apply cos_gt_0; lra).
  replace (1 + tan s * tan s) with (/ (cos s * cos s)); [apply d_tan; lra|].
  unfold tan. pose proof (sin2_cos2 s) as E. unfold Rsqr in E.
  assert (1 + sin s / cos s * (sin s / cos s) = (sin s * sin s + cos s * cos s) / (cos s * cos s)) as -> by (field; lra).
  rewrite E. field. lra.
Qed.
Definition tan_D (j : nat) (s : R) : R :=
  match j with
  | O => tan s
  | 1%nat => 1 + tan s * tan s
  | 2%nat => 2 * tan s * (1 + tan s * tan s)
  | _ => 2 * (1 + tan s * tan s) * (1 + tan s * tan s) + 4 * tan s * tan s * (1 + tan s * tan s)
  end.
Lemma tan_D_step j s : (j < 3)%nat -> -1 < s < 1 -> derivable_pt_lim (tan_D j) s (tan_D (S j) s).
Proof.
  intros Hj H. pose proof (tan_d1 s H) as D.
  assert (derivable_pt_lim (fun t => 1 + tan t * tan t) s (2 * tan s * (1 + tan s * tan s))) as D2.
  { replace (2 * tan s * (1 + tan s * tan s)) with (0 + ((1 + tan s * tan s) * tan s + tan s * (1 + tan s * tan s))) by ring.
    apply (derivable_pt_lim_plus (fun _ => 1)); [apply derivable_pt_lim_const|].
    apply (derivable_pt_lim_mult tan tan); auto. }
  destruct j as [|[|[|j]]]; [exact D|exact D2| |lia].
  cbn [tan_D].
  replace (2 * (1 + tan s * tan s) * (1 + tan s * tan s) + 4 * tan s * tan s * (1 + tan s * tan s))
    with (2 * (1 + tan s * tan s) * (1 + tan s * tan s) + 2 * tan s * (2 * tan s * (1 + tan s * tan s))) by ring.
  apply (derivable_pt_lim_mult (fun t => 2 * tan t) (fun t => 1 + tan t * tan t)); auto.
  apply (derivable_pt_lim_scal tan 2). auto.
Qed.
Lemma tan_D_at : derivatives_at 3 0 tan_D.
Proof.
  split.
  - intros j Hj. exists 1. split; [lra|]. intros s Hs. apply tan_D_step; [lia|].
    apply Rabs_def2 in Hs. lra.
  - intros j Hj. replace 3%nat with (S j) by lia. apply tan_D_step; [lia|lra].
Qed.

Theorem nest_tan_wrong : exists D y,
  (forall s, nth 0 (outputs nx_tan [s]) 0 = D O s) /\ derivatives_at 3 0 D /\ D 3%nat 0 = 2 /\
  nest_eval Rops 2 nx_tan [seed 3 0] = Ok [y] /\ comp 3 [true; true; true] y = 0.
Proof.
  destruct nx_tan_nested as (y & E & H). exists tan_D, y.
  repeat split; auto using tan_D_at; try apply tan_D_at.
  cbn. rewrite tan_0. ring.
Qed.

(** *** exp(x)/x: any order at 2 *)
Definition nx_quot : func R := AdvFn 1 1 (Let1 UExp 0 (Let2 BDiv 1 0 (Ret [2]%nat))).
Lemma nx_quot_regular k x : x <> 0 -> regular_n k nx_quot [seed (S k) x].
Proof.
  intros Hx ys P E. cbn [feval nx_quot run map length Nat.eqb] in E.
  unfold mbind, mlift, mret, nk_fop, assert, get, m_exp, m_div, meth1, meth2 in E.
  cbn [nth_error fst snd option_map app bind] in E.
  cbn in E. injection E as _ <-. split; [split; exact I|].
  intros z [= <-]. cbn [fst].
  assert (nval k (seed k x) = x) as -> by (clear; induction k; auto).
  auto using seed_settled.
Qed.
Lemma nx_quot_branches x : same_branches_near nx_quot [x].
Proof. left. cbn. auto. Qed.

Definition nx_sq {F : Type} : func F := AdvFn 1 1 (Let1 (UPowi 2) 0 (Ret [1]%nat)).
Lemma nx_sq_gen {F} (Fo : Fops F) (nan : F) :
  let z := f_zero Fo in let o := f_one Fo in
  f_eqb Fo o z = false -> f_eqb Fo z z = true -> f_sub Fo z z = z -> f_sub Fo (f_of_Z Fo 2) o = o -> f_sub Fo o o = z ->
  (forall x, f_add Fo x nan = nan) -> (forall x, f_add Fo nan x = nan) ->
  (forall x, f_mul Fo x nan = nan) -> (forall x, f_mul Fo nan x = nan) ->
  f_mul Fo z (f_powf Fo z (f_sub Fo z o)) = nan ->
  exists y, nest_eval Fo 2 nx_sq [(((z, o), (o, z)), ((o, z), (z, z)))] = Ok [y] /\ snd (snd (snd y)) = nan.
Proof.
  intros z o. subst z o. intros E1 E2 E3 E4 E5 A1 A2 M1 M2 E6.
  eexists. split; [rewrite nest_eval_eq; cbn; reflexivity|]. cbn.
  rewrite ?E1, ?E2, ?E3, ?E1, ?E2. cbn.
  rewrite ?E1, ?E2, ?E3, ?E1, ?E2. cbn.
  rewrite ?E4, ?E5, ?E6. repeat (rewrite M1 || rewrite M2 || rewrite A1 || rewrite A2). reflexivity.
Qed.
Theorem nest_sq_nan (T : libm) :
  l_powf T (lit 0) (lit (-1)) = S754_infinity false ->
  exists y, nest_eval (f64ops T) 2 nx_sq
              [(((lit 0, lit 1), (lit 1, lit 0)), ((lit 1, lit 0), (lit 0, lit 0)))] = Ok [y] /\
            snd (snd (snd y)) = S754_nan.
Proof.
  intros H. apply (nx_sq_gen (f64ops T) S754_nan); try reflexivity; try (intros []; reflexivity).
  change (sf_mul (lit 0) (l_powf T (lit 0) (lit (-1))) = S754_nan). rewrite H. reflexivity.
Qed.
