(** A C++ program records the tape of the Rust function with the same operations. *)
From Coq Require Import List Arith ZArith Bool Lia.
From Verif Require Import Base Float Operation Tape AContext Methods Function Spec Param Instances
  FunctionFacts ReplayFacts ApiFacts3 Replay2 PairBuild BuildRange Ffi FfiSpec FfiFacts FfiRecSpec.
Import ListNotations.

Section Rec.
Context {S : Type} (So : Fops S).
Notation vrun := (value_run So (fun _ => CoAdd)).
Notation vstep := (value_step So (fun _ => CoAdd)).

Lemma vrun_app p : forall st q,
  vrun st (p ++ q) = match vrun st p with Done st' => vrun st' q | Err e => Err e end.
Proof.
  induction p as [|s p IH]; intros st q; auto. cbn [app value_run].
  unfold obind. destruct (vstep st s); auto.
Qed.

(** Objects have the values of their variables. *)
Definition holds (st : store S) (var : nat -> option nat) (E : list (AF S)) : Prop :=
  forall x, match var x with
            | Some i => exists v, nth_error E i = Some v /\ s_val st x = Some v
            | None => s_val st x = None
            end.

Lemma holds_upd st var E x i v :
  holds st var E -> nth_error E i = Some v ->
  holds (set_val st x (Some v)) (upd var x (Some i)) E.
Proof.
  intros H Hi z. specialize (H z). unfold upd, set_val. cbn. unfold upd.
  destruct (z =? x); eauto.
Qed.
Lemma holds_app st var E v : holds st var E -> holds st var (E ++ [v]).
Proof.
  intros H z. specialize (H z). destruct (var z) as [i|]; auto. destruct H as (u & H1 & H2).
  exists u. split; auto. rewrite nth_error_app1; auto. apply nth_error_Some. congruence.
Qed.
Lemma holds_new st var E x v : holds st var E ->
  holds (set_val st x (Some v)) (upd var x (Some (length E))) (E ++ [v]).
Proof.
  intros H. apply holds_upd; [apply holds_app; auto|].
  rewrite nth_error_app2, Nat.sub_diag by lia. reflexivity.
Qed.
Lemma holds_drop st var E x : holds st var E -> holds (set_val st x None) (upd var x None) E.
Proof.
  intros H z. specialize (H z). unfold upd, set_val. cbn. unfold upd. destruct (z =? x); auto.
Qed.
Lemma holds_w st var E w : holds st var E -> holds (mkStore w (s_val st) (s_ctx st)) var E.
Proof. auto. Qed.

Lemma names_get st var E : holds st var E -> forall outs is,
  names var outs = Some is ->
  exists ys, mapM (get E) is = Ok ys /\ map (s_val st) outs = map Some ys.
Proof.
  intros H. induction outs as [|x outs IH]; intros is Hn; cbn in Hn.
  - injection Hn as <-. exists []. auto.
  - specialize (H x). destruct (var x) as [i|]; [|discriminate].
    destruct (names var outs) as [is'|]; [|discriminate]. injection Hn as <-.
    destruct H as (v & H1 & H2). destruct (IH is' eq_refl) as (ys & E1 & E2).
    exists (v :: ys). cbn. unfold get at 1. rewrite H1. cbn. rewrite E1. cbn. rewrite H2, E2. auto.
Qed.

Lemma body_run outs p : forall var n st E q,
  rust_body So var n outs p = Some q -> holds st var E -> length E = n ->
  match run_af So Some q E (s_w st) with
  | Ok (ys, w') => exists st', vrun st p = Done st' /\ s_w st' = w' /\ s_ctx st' = s_ctx st /\
                     map (s_val st') outs = map Some ys
  | Panic e => vrun st p = Err (RustPanic e)
  end.
Proof.
  unfold run_af. induction p as [|s p IH]; intros var n st E q Hq HE Hn; cbn [rust_body value_run] in *.
  - destruct (names var outs) as [is|] eqn:Ei; [|discriminate]. injection Hq as <-. cbn [run].
    destruct (names_get st var E HE outs is Ei) as (ys & E1 & E2). unfold mlift. rewrite E1.
    exists st. auto.
  - assert (forall x, var x = None -> fresh_val st x = Done tt) as HF.
    { intros x Hx. specialize (HE x). rewrite Hx in HE. unfold fresh_val. rewrite HE. auto. }
    assert (forall x i, var x = Some i -> exists v, get E i = Ok v /\ the_val st x = Done v /\
              nth_error E i = Some v) as HV.
    { intros x i Hx. specialize (HE x). rewrite Hx in HE. destruct HE as (v & H1 & H2).
      exists v. unfold get, the_val. rewrite H1, H2. auto. }
    assert (forall st' w' r, (exists st2, vrun st' p = Done st2 /\ s_w st2 = w' /\ s_ctx st2 = s_ctx st' /\
              map (s_val st2) outs = map Some r) -> s_ctx st' = s_ctx st ->
            exists st2, vrun st' p = Done st2 /\ s_w st2 = w' /\ s_ctx st2 = s_ctx st /\
              map (s_val st2) outs = map Some r) as HT.
    { intros st' w' r (st2 & A & B & C & D) HC. exists st2. repeat split; auto. congruence. }
    destruct s; cbn [value_step]; try discriminate.
    + destruct (var x) eqn:Ex; [discriminate|]. rewrite (HF _ Ex). cbn [obind].
      destruct (rust_body _ _ _ _ p) as [q'|] eqn:Eq; [|discriminate]. injection Hq as <-. cbn [run].
      pose proof (IH _ _ (set_val st x (Some (zero_val So))) (E ++ [zero_val So]) q' Eq) as H.
      rewrite <- Hn in H. specialize (H (holds_new _ _ _ _ _ HE)). rewrite app_length in H.
      specialize (H eq_refl). cbn [s_w set_val] in H. unfold af_const, zero_val in *.
      destruct (run So _ _ _ _ _ _) as [[ys w']|]; auto.
    + destruct (var x) eqn:Ex; [discriminate|]. rewrite (HF _ Ex). cbn [obind].
      destruct (rust_body _ _ _ _ p) as [q'|] eqn:Eq; [|discriminate]. injection Hq as <-. cbn [run].
      pose proof (IH _ _ (set_val st x (Some (const_val So c))) (E ++ [const_val So c]) q' Eq) as H.
      rewrite <- Hn in H. specialize (H (holds_new _ _ _ _ _ HE)). rewrite app_length in H.
      specialize (H eq_refl). cbn [s_w set_val] in H. unfold af_const, const_val in *.
      destruct (run So _ _ _ _ _ _) as [[ys w']|]; auto.
    + destruct (var x) eqn:Ex; [discriminate|]. destruct (var y) as [i|] eqn:Ey; [|discriminate].
      rewrite (HF _ Ex). cbn [obind]. destruct (HV _ _ Ey) as (v & V1 & V2 & V3). rewrite V2. cbn [obind].
      pose proof (IH _ _ (set_val st x (Some v)) E q Hq (holds_upd _ _ _ _ _ _ HE V3) Hn) as H.
      cbn [s_w set_val] in H.
      destruct (run So _ _ _ _ _ _) as [[ys w']|]; auto.
    + destruct (var x) eqn:Ex; [discriminate|]. destruct (var y) as [i|] eqn:Ey; [|discriminate].
      rewrite (HF _ Ex). cbn [obind]. destruct (HV _ _ Ey) as (v & V1 & V2 & V3). rewrite V2. cbn [obind].
      destruct (rust_body _ _ _ _ p) as [q'|] eqn:Eq; [|discriminate]. injection Hq as <-. cbn [run].
      pose proof (IH _ _ (set_val (set_val st x (Some v)) y (Some (zero_val So))) (E ++ [zero_val So]) q' Eq) as H.
      rewrite <- Hn in H. specialize (H (holds_new _ _ _ _ _ (holds_upd _ _ _ _ _ _ HE V3))).
      rewrite app_length in H. specialize (H eq_refl). cbn [s_w set_val] in H. unfold af_const, zero_val in *.
      destruct (run So _ _ _ _ _ _) as [[ys w']|]; auto.
    + destruct (var x) as [k|] eqn:Ex; [|discriminate]. destruct (var y) as [i|] eqn:Ey; [|discriminate].
      destruct (x =? y); [discriminate|].
      destruct (HV _ _ Ex) as (u & _ & U & _). rewrite U. cbn [obind].
      destruct (HV _ _ Ey) as (v & V1 & V2 & V3). rewrite V2. cbn [obind].
      pose proof (IH _ _ (set_val st x (Some v)) E q Hq (holds_upd _ _ _ _ _ _ HE V3) Hn) as H.
      cbn [s_w set_val] in H.
      destruct (run So _ _ _ _ _ _) as [[ys w']|]; auto.
    + destruct (var x) as [k|] eqn:Ex; [|discriminate]. destruct (var y) as [i|] eqn:Ey; [|discriminate].
      destruct (HV _ _ Ex) as (u & _ & U & _). rewrite U. cbn [obind].
      destruct (HV _ _ Ey) as (v & V1 & V2 & V3). rewrite V2. cbn [obind].
      destruct (rust_body _ _ _ _ p) as [q'|] eqn:Eq; [|discriminate]. injection Hq as <-. cbn [run].
      pose proof (IH _ _ (set_val (set_val st x (Some v)) y (Some (zero_val So))) (E ++ [zero_val So]) q' Eq) as H.
      rewrite <- Hn in H. specialize (H (holds_new _ _ _ _ _ (holds_upd _ _ _ _ _ _ HE V3))).
      rewrite app_length in H. specialize (H eq_refl). cbn [s_w set_val] in H. unfold af_const, zero_val in *.
      destruct (run So _ _ _ _ _ _) as [[ys w']|]; auto.
    + destruct (var x) eqn:Ex; [discriminate|]. destruct (var y) as [i|] eqn:Ey; [|discriminate].
      destruct (var z) as [j|] eqn:Ez; [|discriminate].
      rewrite (HF _ Ex). cbn [obind]. destruct (HV _ _ Ey) as (v & V1 & V2 & V3). rewrite V2. cbn [obind].
      destruct (HV _ _ Ez) as (u & U1 & U2 & U3). rewrite U2. cbn [obind].
      destruct (rust_body _ _ _ _ p) as [q'|] eqn:Eq; [|discriminate]. injection Hq as <-. cbn [run].
      unfold mbind, mlift. rewrite V1, U1. unfold call. change (const_val So) with (af_const So).
      change (fop So) with (from_op So (@Some S)).
      destruct (meth2 So (from_op So Some) (af_const So) (rust_op o) v u (s_w st)) as [[r w1]|e] eqn:Er;
        cbn [obind fst snd]; auto.
      set (st1 := mkStore w1 (s_val st) (s_ctx st)).
      pose proof (IH _ _ (set_val st1 x (Some r)) (E ++ [r]) q' Eq) as H.
      rewrite <- Hn in H. specialize (H (holds_new st1 _ _ _ _ (holds_w _ _ _ _ HE))).
      rewrite app_length in H. specialize (H eq_refl). cbn [s_w set_val st1] in H.
      destruct (run So _ _ _ _ _ _) as [[ys w']|]; auto.
    + destruct (var x) eqn:Ex; [discriminate|]. destruct (var y) as [j|] eqn:Ey; [|discriminate].
      rewrite (HF _ Ex). cbn [obind]. destruct (HV _ _ Ey) as (v & V1 & V2 & V3). rewrite V2. cbn [obind].
      destruct (rust_body _ _ _ _ p) as [q'|] eqn:Eq; [|discriminate]. injection Hq as <-. cbn [run].
      set (k := af_const So c).
      assert (get (E ++ [k]) n = Ok k) as G1.
      { unfold get. rewrite nth_error_app2, <- Hn, Nat.sub_diag by lia. reflexivity. }
      assert (get (E ++ [k]) j = Ok v) as G2.
      { unfold get. rewrite nth_error_app1, V3; auto. apply nth_error_Some. congruence. }
      unfold mbind, mlift. rewrite G1, G2. unfold call. change (const_val So) with (af_const So). fold k.
      change (fop So) with (from_op So (@Some S)). cbn [rust_op].
      destruct (meth2 So (from_op So Some) (af_const So) BAdd k v (s_w st)) as [[r w1]|e] eqn:Er;
        cbn [obind fst snd]; auto.
      set (st1 := mkStore w1 (s_val st) (s_ctx st)).
      pose proof (IH _ _ (set_val st1 x (Some r)) ((E ++ [k]) ++ [r]) q' Eq) as H.
      assert (n + 1 = length (E ++ [k])) as Ln by (rewrite app_length; cbn; lia). rewrite Ln in H.
      specialize (H (holds_new st1 _ _ _ _ (holds_w _ _ _ _ (holds_app _ _ _ _ HE)))).
      assert (length ((E ++ [k]) ++ [r]) = n + 2) as L by (rewrite !app_length; cbn; lia).
      specialize (H L). cbn [s_w set_val st1] in H.
      destruct (run So _ _ _ _ _ _) as [[ys w']|]; auto.
    + destruct (var x) eqn:Ex; [discriminate|]. destruct (var y) as [i|] eqn:Ey; [|discriminate].
      destruct (var z) as [j|] eqn:Ez; [|discriminate].
      rewrite (HF _ Ex). cbn [obind]. destruct (HV _ _ Ey) as (v & V1 & V2 & V3). rewrite V2. cbn [obind].
      destruct (HV _ _ Ez) as (u & U1 & U2 & U3). rewrite U2. cbn [obind].
      destruct (rust_body _ _ _ _ p) as [q'|] eqn:Eq; [|discriminate]. injection Hq as <-. cbn [run].
      unfold mbind, mlift. rewrite V1, U1. unfold call. change (const_val So) with (af_const So).
      change (fop So) with (from_op So (@Some S)).
      destruct (meth2 So (from_op So Some) (af_const So) (rust_fn2 f) v u (s_w st)) as [[r w1]|e] eqn:Er;
        cbn [obind fst snd]; auto.
      set (st1 := mkStore w1 (s_val st) (s_ctx st)).
      pose proof (IH _ _ (set_val st1 x (Some r)) (E ++ [r]) q' Eq) as H.
      rewrite <- Hn in H. specialize (H (holds_new st1 _ _ _ _ (holds_w _ _ _ _ HE))).
      rewrite app_length in H. specialize (H eq_refl). cbn [s_w set_val st1] in H.
      destruct (run So _ _ _ _ _ _) as [[ys w']|]; auto.
    + destruct (var x) eqn:Ex; [discriminate|]. destruct (var y) as [i|] eqn:Ey; [|discriminate].
      rewrite (HF _ Ex). cbn [obind]. destruct (HV _ _ Ey) as (v & V1 & V2 & V3). rewrite V2. cbn [obind].
      destruct (rust_body _ _ _ _ p) as [q'|] eqn:Eq; [|discriminate]. injection Hq as <-. cbn [run].
      unfold mbind, mlift. rewrite V1. unfold call. change (const_val So) with (af_const So).
      change (fop So) with (from_op So (@Some S)).
      destruct (meth1 So (from_op So Some) (af_const So) (rust_fn1 f) v (s_w st)) as [[r w1]|e] eqn:Er;
        cbn [obind fst snd]; auto.
      set (st1 := mkStore w1 (s_val st) (s_ctx st)).
      pose proof (IH _ _ (set_val st1 x (Some r)) (E ++ [r]) q' Eq) as H.
      rewrite <- Hn in H. specialize (H (holds_new st1 _ _ _ _ (holds_w _ _ _ _ HE))).
      rewrite app_length in H. specialize (H eq_refl). cbn [s_w set_val st1] in H.
      destruct (run So _ _ _ _ _ _) as [[ys w']|]; auto.
    + destruct (var x) as [k|] eqn:Ex; [|discriminate].
      destruct (HV _ _ Ex) as (u & _ & U & _). rewrite U. cbn [obind].
      pose proof (IH _ _ (set_val st x None) E q Hq (holds_drop _ _ _ _ HE) Hn) as H.
      cbn [s_w set_val] in H.
      destruct (run So _ _ _ _ _ _) as [[ys w']|]; auto.
Qed.

(** The code contains no copy of an object onto itself. *)
Lemma body_no_self outs p : forall var n q, rust_body So var n outs p = Some q -> Forall not_self_copy p.
Proof.
  induction p as [|s p IH]; intros var n q H; constructor; cbn [rust_body] in H; unfold option_map in H.
  - destruct s; cbn; auto. destruct (var x), (var y); try discriminate.
    destruct (Nat.eqb_spec x y); [discriminate|auto].
  - destruct s; repeat (match type of H with context [match ?v with _ => _ end] =>
      destruct v eqn:?; try discriminate end); try discriminate; eauto.
Qed.

(** Independents *)
Lemma indeps_run c n : forall a st,
  s_ctx st 0 = Some (Some c) -> (forall x, a <= x -> s_val st x = None) ->
  match set_indeps Some c (map (af_const So) (repeat (f_zero So) n)) (s_w st) with
  | Ok (E, w') => exists st', vrun st (map (fun x => KIndep x 0) (seq a n)) = Done st' /\ s_w st' = w' /\
      s_ctx st' = s_ctx st /\ length E = n /\
      (forall x, x < a -> s_val st' x = s_val st x) /\
      (forall x, a <= x -> s_val st' x = nth_error E (x - a))
  | Panic e => vrun st (map (fun x => KIndep x 0) (seq a n)) = Err (RustPanic e)
  end.
Proof.
  induction n as [|n IH]; intros a st Hc Hf; cbn [repeat map set_indeps seq value_run].
  - unfold mret. exists st. repeat split; auto. intros x Hx. rewrite Hf by auto. destruct (x - a); auto.
  - unfold mbind. cbn [value_step]. unfold fresh_val. rewrite Hf by lia. cbn [obind].
    unfold the_ctx. rewrite Hc. cbn [obind usable]. unfold call, new_indep.
    change (af_new (f_zero So) (f_zero So)) with (af_const So (f_zero So)).
    destruct (set_indep Some c (af_const So (f_zero So)) (s_w st)) as [[v w1]|e] eqn:Ev; auto.
    cbn [obind fst snd].
    set (st1 := set_val (mkStore w1 (s_val st) (s_ctx st)) a (Some v)).
    specialize (IH (a + 1) st1 Hc). cbn [s_w set_val st1] in IH.
    replace (Datatypes.S a) with (a + 1) by lia.
    assert (forall x, a + 1 <= x -> s_val st1 x = None) as Hf1.
    { intros x Hx. cbn. unfold upd. destruct (Nat.eqb_spec x a); [lia|]. apply Hf. lia. }
    specialize (IH Hf1).
    destruct (set_indeps Some c (map (af_const So) (repeat (f_zero So) n)) w1) as [[E w']|e]; auto.
    destruct IH as (st' & A & B & C & D & G1 & G2). exists st'. unfold mret. split; [exact A|].
    split; auto. split; [rewrite C; auto|]. split; [cbn; auto|]. split.
    + intros x Hx. rewrite G1 by lia. cbn. unfold upd. destruct (Nat.eqb_spec x a); [lia|auto].
    + intros x Hx. destruct (Nat.eq_dec x a) as [->|N].
      * rewrite G1 by lia. rewrite Nat.sub_diag. cbn. unfold upd. rewrite Nat.eqb_refl. auto.
      * rewrite G2 by lia. replace (x - a) with (Datatypes.S (x - (a + 1))) by lia. reflexivity.
Qed.

(** Dependents *)
Lemma deps_run c : forall outs ys st,
  s_ctx st 0 = Some (Some c) -> map (s_val st) outs = map Some ys ->
  match set_dep_slice Some c ys (s_w st) with
  | Ok (_, w') => vrun st (map (KDep 0) outs) = Done (mkStore w' (s_val st) (s_ctx st))
  | Panic e => vrun st (map (KDep 0) outs) = Err (RustPanic e)
  end.
Proof.
  induction outs as [|x outs IH]; intros [|y ys] st Hc Hv; cbn in Hv; try discriminate.
  - cbn. destruct st; auto.
  - injection Hv as Hx Hv. cbn [set_dep_slice map value_run]. unfold mbind. cbn [value_step].
    unfold the_ctx. rewrite Hc. cbn [obind usable]. unfold the_val. rewrite Hx. cbn [obind].
    unfold call. destruct (set_dep Some c y (s_w st)) as [[u w1]|e]; auto. cbn [obind snd].
    apply (IH ys (mkStore w1 (s_val st) (s_ctx st))); auto.
Qed.

Lemma map_Some_len {A B : Type} (g : A -> option B) l ys : map g l = map Some ys -> length ys = length l.
Proof. intros H. rewrite <- (map_length Some ys), <- H. apply map_length. Qed.

(** Translated code never panics. *)
Lemma names_lt (var : nat -> option nat) n outs is :
  (forall x i, var x = Some i -> i < n) -> names var outs = Some is ->
  Forall (fun a => a < n) is /\ length is = length outs.
Proof.
  intros Hv. revert is. induction outs as [|x outs IH]; intros is H; cbn in H.
  - injection H as <-. auto.
  - destruct (var x) as [i|] eqn:Ex; [|discriminate]. destruct (names var outs) as [is'|]; [|discriminate].
    injection H as <-. destruct (IH is' eq_refl) as [A B]. split; [constructor; eauto|cbn; auto].
Qed.

Lemma body_fits outs p : forall var n q,
  (forall x i, var x = Some i -> i < n) -> rust_body So var n outs p = Some q ->
  fits n q /\ length (rets q) = length outs.
Proof.
  induction p as [|s p IH]; intros var n q Hv Hq; cbn [rust_body] in Hq.
  - destruct (names var outs) as [is|] eqn:Ei; [|discriminate]. injection Hq as <-.
    apply (names_lt var n outs); auto.
  - replace (n + 1) with (Datatypes.S n) in Hq by lia. replace (n + 2) with (Datatypes.S (Datatypes.S n)) in Hq by lia.
    assert (forall x, match var x with Some i => i < n | None => True end) as HW.
    { intros x. specialize (Hv x). destruct (var x); auto. }
    destruct s; try discriminate; unfold option_map in Hq;
      pose proof (HW x) as Wx; first [pose proof (HW y) as Wy|pose proof I as Wy]; first [pose proof (HW z) as Wz|pose proof I as Wz];
      repeat (match type of Hq with context [match ?v with _ => _ end] =>
        destruct v eqn:?; try discriminate end);
      try (injection Hq as <-);
      match goal with H : rust_body _ ?vv ?nn _ p = Some ?qq |- _ =>
        assert (forall x i, vv x = Some i -> i < nn) as HB by
          (clear - Hv Wx Wy Wz; intros z' i'; unfold upd;
           repeat match goal with |- context [if ?b then _ else _] => destruct b end;
           intros E'; first [discriminate E' | (injection E' as <-; lia) | (apply Hv in E'; lia)]);
        destruct (IH vv nn qq HB H) as [IA IB] end;
      cbn [fits rets]; repeat split; auto; try lia; try (destruct o; discriminate); try (destruct f; discriminate);
      try discriminate.
Qed.

Lemma rust_fn_shape n code outs f : rust_fn So n code outs = Some f ->
  exists q, f = AdvFn n (length outs) q /\ rust_body So (inputs n) n outs code = Some q /\
    fits n q /\ length (rets q) = length outs.
Proof.
  unfold rust_fn. destruct (rust_body So (inputs n) n outs code) as [q|] eqn:Eq; [|discriminate].
  intros [= <-]. exists q. do 2 (split; [auto|]). eapply body_fits; [|exact Eq].
  intros x i. unfold inputs. destruct (Nat.ltb_spec x n); [intros [= <-]; auto|discriminate].
Qed.

Lemma rust_fn_value n code outs f x : rust_fn So n code outs = Some f -> length x = n ->
  straight_f f /\ exists y, v_eval So f x = Ok y /\ length y = length outs.
Proof.
  intros H L. destruct (rust_fn_shape _ _ _ _ H) as (q & -> & _ & HF & HR). split.
  - cbn. eapply fits_straight; eauto.
  - unfold v_eval. cbn [feval]. unfold mbind, mlift. rewrite <- L, Nat.eqb_refl. cbn [assert].
    rewrite <- L in HF. destruct (fits_run So q x HF) as (ys & E & LY). rewrite E.
    rewrite LY, HR, Nat.eqb_refl. cbn. eauto. exists ys. split; auto. congruence.
Qed.

Lemma recording_no_self n code outs : Forall not_self_copy code ->
  Forall (@not_self_copy S) (recording n code outs).
Proof.
  intros H. unfold recording. constructor; [exact I|]. apply Forall_app. split; [|apply Forall_app; split; auto].
  - apply Forall_forall. intros s Hs. apply in_map_iff in Hs as (x & <- & _). exact I.
  - apply Forall_forall. intros s Hs. apply in_map_iff in Hs as (x & <- & _). exact I.
Qed.

(** The state after the independents have been made *)
Lemma recording_start w n c w1 E w2 code outs :
  ctx_new w = Ok (c, w1) ->
  set_indeps Some c (map (af_const So) (repeat (f_zero So) n)) w1 = Ok (E, w2) ->
  exists st2, vrun (store0 w) (recording n code outs) = vrun st2 (code ++ map (KDep 0) outs) /\
    s_w st2 = w2 /\ s_ctx st2 0 = Some (Some c) /\ length E = n /\ holds st2 (inputs n) E.
Proof.
  intros E1 E2. unfold recording. cbn [value_run value_step]. unfold fresh_ctx. cbn [store0 s_ctx obind].
  unfold call. cbn [s_w store0]. rewrite E1. cbn [obind fst snd].
  set (st1 := set_ctx (mkStore w1 (fun _ => None) (fun _ => None)) 0 (Some (Some c))).
  change (set_ctx _ 0 (Some (Some c))) with st1.
  assert (s_ctx st1 0 = Some (Some c)) as C1 by reflexivity.
  rewrite vrun_app. pose proof (indeps_run c n 0 st1 C1 ltac:(reflexivity)) as HI.
  change (s_w st1) with w1 in HI. rewrite E2 in HI.
  destruct HI as (st2 & -> & W2 & C2 & LE & _ & HE). exists st2. split; [auto|]. split; [auto|].
  split; [rewrite C2; auto|]. split; [auto|].
  intros x. specialize (HE x ltac:(lia)). rewrite Nat.sub_0_r in HE. unfold inputs.
  destruct (Nat.ltb_spec x n) as [L|L].
  - destruct (nth_error E x) as [v|] eqn:Ev; [eauto|]. apply nth_error_None in Ev. lia.
  - rewrite HE. apply nth_error_None. lia.
Qed.

Theorem recording_agrees w n code outs f :
  ids_fresh w -> rust_fn So n code outs = Some f ->
  exists m c t w2 w', cxx So (recording n code outs) (mach0 w) = Done (tt, m) /\
    context_of m 0 = Some (Some c) /\ ctx_tape c (m_w m) = Ok (t, w2) /\
    fn_tape So f (repeat (f_zero So) n) w = Ok (t, w').
Proof.
  intros Hw Hf. destruct (rust_fn_shape _ _ _ _ Hf) as (q & -> & Eq & _).
  destruct (rust_fn_value _ _ _ _ (repeat (f_zero So) n) Hf (repeat_length _ _)) as (_ & y & Ey & _).
  destruct (proj2 (record_iff So (AdvFn n (length outs) q) (repeat (f_zero So) n) w)) as (t & w' & HT).
  { exists y, w. rewrite eval_float_v, Ey. reflexivity. }
  pose proof HT as HT0. unfold fn_tape, mbind in HT.
  destruct (ctx_new w) as [[c w1]|p] eqn:E1; [|discriminate].
  destruct (set_indeps Some c (map (af_const So) (repeat (f_zero So) n)) w1) as [[E w2]|p] eqn:E2; [|discriminate].
  destruct (recording_start w n c w1 E w2 code outs E1 E2) as (st2 & HR & W2 & C2 & LE & HO).
  rewrite vrun_app in HR.
  pose proof (body_run outs code (inputs n) n st2 E q Eq HO LE) as HB. rewrite W2 in HB.
  unfold eval in HT. cbn [feval] in HT. unfold mbind, mlift in HT. rewrite LE, Nat.eqb_refl in HT. cbn [assert] in HT.
  unfold run_af in HB.
  destruct (run So (from_op So Some) (af_const So) af_v q E w2) as [[ys w3]|p]; [|discriminate].
  destruct HB as (st3 & HB & W3 & C3 & HY). rewrite HB in HR.
  rewrite (map_Some_len _ _ _ HY), Nat.eqb_refl in HT. cbn [assert] in HT.
  assert (s_ctx st3 0 = Some (Some c)) as C4 by (rewrite C3; auto).
  pose proof (deps_run c outs ys st3 C4 HY) as HD. rewrite W3 in HD. unfold mret in HT.
  destruct (set_dep_slice Some c ys w3) as [[u w4]|p]; [|discriminate]. rewrite HD in HR.
  destruct (ctx_tape c w4) as [[t' w5]|p] eqn:E5; [|discriminate].
  assert (t' = t) as -> by (destruct (ctx_drop c w5) as [[? ?]|]; [injection HT as -> _; auto|discriminate]).
  pose proof (scalar_left_adds So w (recording n code outs) Hw
    (recording_no_self _ _ _ (body_no_self _ _ _ _ _ Eq))) as HA.
  rewrite HR in HA.
  destruct (cxx So (recording n code outs) (mach0 w)) as [[[] m]|e]; [|contradiction].
  destruct HA as (A1 & A2 & A3). exists m, c, t, w5, w'. rewrite A3, A1. cbn [s_ctx s_w]. auto.
Qed.

(** The recorded tape computes the function everywhere. *)
Theorem recording_replays w n code outs f m c t w2 x w3 :
  ids_fresh w -> rust_fn So n code outs = Some f ->
  cxx So (recording n code outs) (mach0 w) = Done (tt, m) -> context_of m 0 = Some (Some c) ->
  ctx_tape c (m_w m) = Ok (t, w2) -> length x = n ->
  exists t' y, tape_zero_order So t x = Ok t' /\ tape_y t' = Ok y /\
    eval_float So f x w3 = Ok (y, w3) /\ length y = length outs.
Proof.
  intros Hw Hf E1 E2 E3 L. destruct (recording_agrees w n code outs f Hw Hf) as (m' & c' & t0 & w2' & w' & A & B & C & D).
  assert (m' = m) as -> by congruence. assert (c' = c) as -> by congruence.
  assert (t0 = t) as -> by congruence.
  destruct (rust_fn_value _ _ _ _ x Hf L) as (HS & y0 & Ey & Ly).
  destruct (replay_float So f _ w t w' x D) as (t' & y & P & Q & HR); [now rewrite repeat_length|auto|].
  exists t', y. repeat split; auto. specialize (HR w3). rewrite eval_float_v, Ey in HR. injection HR as <-. auto.
Qed.

(** Every program that finishes has such a function. *)
Lemma obind_done {A B : Type} (m : out A) (k : A -> out B) b : obind m k = Done b -> exists a, m = Done a /\ k a = Done b.
Proof. destruct m as [a|e]; [eauto|discriminate]. Qed.
Lemma fresh_done st var E x : holds st var E -> fresh_val st x = Done tt -> var x = None.
Proof.
  intros H. specialize (H x). unfold fresh_val. destruct (var x); auto. destruct H as (v & _ & ->). discriminate.
Qed.
Lemma the_done st var E x v : holds st var E -> the_val st x = Done v -> exists i, var x = Some i /\ nth_error E i = Some v.
Proof.
  intros H. specialize (H x). unfold the_val. destruct (var x) as [i|].
  - destruct H as (u & A & ->). intros [= <-]. eauto.
  - rewrite H. discriminate.
Qed.
Lemma call_done {A : Type} (st : store S) (m : M (world S) A) a st' : call st m = Done (a, st') ->
  s_val st' = s_val st.
Proof. unfold call. destruct (m (s_w st)) as [[a' w']|]; [intros [= _ <-]; auto|discriminate]. Qed.

Lemma body_complete outs p : forall var n st E st',
  holds st var E -> length E = n -> Forall no_context p -> Forall not_self_copy p ->
  vrun st (p ++ map (KDep 0) outs) = Done st' -> exists q, rust_body So var n outs p = Some q.
Proof.
  induction p as [|s p IH]; intros var n st E st' H Hn Hk Hs Hr.
  - cbn [rust_body app] in *. cut (exists is, names var outs = Some is).
    { intros (is & ->). cbn. eauto. }
    clear Hk Hs. revert st H Hr. induction outs as [|x outs IHo]; intros st H Hr; cbn [names]; eauto.
    cbn [map value_run value_step] in Hr. apply obind_done in Hr as (st1 & Hr1 & Hr).
    apply obind_done in Hr1 as (c & _ & Hr1). apply obind_done in Hr1 as (c' & _ & Hr1).
    apply obind_done in Hr1 as (v & Hv & Hr1). apply obind_done in Hr1 as ((u & st2) & Hc & [= <-]).
    destruct (the_done _ _ _ _ _ H Hv) as (i & -> & _).
    destruct (IHo st2) as (is & ->); eauto.
    intros z. rewrite (call_done _ _ _ _ Hc). apply H.
  - inversion Hk as [|? ? K0 K]; subst. inversion Hs as [|? ? N0 N]; subst. clear Hk Hs.
    cbn [app value_run] in Hr. apply obind_done in Hr as (st1 & Hs1 & Hr).
    assert (forall var' E', holds st1 var' E' -> exists q, rust_body So var' (length E') outs p = Some q) as IH'.
    { intros var' E' H'. eapply IH; eauto. }
    clear IH Hr.
    assert (forall st2 z, s_val st2 = s_val st -> holds (set_val st2 z None) (upd var z None) E) as HD.
    { intros st2 z Ev. apply holds_drop. intros y. rewrite Ev. apply H. }
    assert (forall st2 v z, s_val st2 = s_val st -> holds (set_val st2 z (Some v)) (upd var z (Some (length E))) (E ++ [v])) as HN.
    { intros st2 v z Ev. apply holds_new. intros y. rewrite Ev. apply H. }
    assert (forall v : AF S, length (E ++ [v]) = length E + 1) as HL by (intros; rewrite app_length; auto).
    destruct s; cbn [no_context not_self_copy] in K0, N0; try contradiction;
      cbn [value_step] in Hs1; cbn [rust_body];
      repeat (apply obind_done in Hs1 as (?a & ?B & Hs1));
      repeat match goal with
        | [ F : fresh_val _ ?x = Done ?u |- _ ] =>
            destruct u; apply (fresh_done _ _ _ _ H) in F; rewrite F; clear F
        | [ F : the_val _ ?x = Done ?u |- _ ] =>
            apply (the_done _ _ _ _ _ H) in F as (?i & F & ?I); rewrite F; clear F
        end;
      injection Hs1 as <-.
    + destruct (IH' _ _ (HN st (zero_val So) x eq_refl)) as (q & Hq). rewrite HL in Hq. rewrite Hq. cbn. eauto.
    + destruct (IH' _ _ (HN st (const_val So c) x eq_refl)) as (q & Hq). rewrite HL in Hq. rewrite Hq. cbn. eauto.
    + apply IH'. apply holds_upd; auto.
    + destruct (IH' _ _ (holds_new _ _ _ y (zero_val So) (holds_upd _ _ _ x _ _ H I))) as (q & Hq). rewrite HL in Hq. rewrite Hq. cbn. eauto.
    + destruct (Nat.eqb_spec x y); [contradiction|]. apply IH'. apply holds_upd; auto.
    + destruct (IH' _ _ (holds_new _ _ _ y (zero_val So) (holds_upd _ _ _ x _ _ H I))) as (q & Hq). rewrite HL in Hq. rewrite Hq. cbn. eauto.
    + destruct a2 as [r st2]. cbn [fst snd] in *. destruct (IH' _ _ (HN st2 r x (call_done _ _ _ _ B2))) as (q & Hq).
      rewrite HL in Hq. rewrite Hq. cbn. eauto.
    + destruct a1 as [r st2]. cbn [fst snd] in *. set (k := const_val So c).
      assert (holds st2 var (E ++ [k])) as H2.
      { apply holds_app. intros z. rewrite (call_done _ _ _ _ B1). apply H. }
      destruct (IH' _ _ (holds_new _ _ _ x r H2)) as (q & Hq).
      rewrite !app_length in Hq. cbn [length] in Hq. replace (length E + 1 + 1) with (length E + 2) in Hq by lia.
      rewrite Hq. cbn. eauto.
    + destruct a2 as [r st2]. cbn [fst snd] in *. destruct (IH' _ _ (HN st2 r x (call_done _ _ _ _ B2))) as (q & Hq).
      rewrite HL in Hq. rewrite Hq. cbn. eauto.
    + destruct a1 as [r st2]. cbn [fst snd] in *. destruct (IH' _ _ (HN st2 r x (call_done _ _ _ _ B1))) as (q & Hq).
      rewrite HL in Hq. rewrite Hq. cbn. eauto.
    + apply IH'. apply HD. auto.
Qed.

Theorem recording_complete w n code outs m :
  ids_fresh w -> Forall no_context code -> Forall not_self_copy code ->
  cxx So (recording n code outs) (mach0 w) = Done (tt, m) -> exists f, rust_fn So n code outs = Some f.
Proof.
  intros Hw Hk Hs E. pose proof (scalar_left_adds So w _ Hw (recording_no_self n code outs Hs)) as HA.
  rewrite E in HA. destruct (vrun (store0 w) (recording n code outs)) as [st|e] eqn:HR; [|contradiction].
  destruct (ctx_new w) as [[c w1]|p] eqn:E1; [|discriminate].
  assert (exists E w2, set_indeps Some c (map (af_const So) (repeat (f_zero So) n)) w1 = Ok (E, w2)) as (E0 & w2 & E2).
  { destruct (set_indeps Some c (map (af_const So) (repeat (f_zero So) n)) w1) as [[E0 w2]|p] eqn:E2; [eauto|].
    exfalso. unfold recording in HR. cbn [value_run value_step] in HR. unfold fresh_ctx in HR. cbn [store0 s_ctx obind] in HR.
    unfold call in HR. cbn [s_w store0] in HR. rewrite E1 in HR. cbn [obind fst snd] in HR.
    set (st1 := set_ctx (mkStore w1 (fun _ => None) (fun _ => None)) 0 (Some (Some c))) in HR.
    rewrite vrun_app in HR. pose proof (indeps_run c n 0 st1 eq_refl ltac:(reflexivity)) as HI.
    change (s_w st1) with w1 in HI. rewrite E2 in HI. change (set_ctx _ 0 (Some (Some c))) with st1 in HR.
    rewrite HI in HR. discriminate. }
  destruct (recording_start w n c w1 E0 w2 code outs E1 E2) as (st2 & HR2 & _ & _ & LE & HO).
  rewrite HR2 in HR. destruct (body_complete outs code (inputs n) n st2 E0 st HO LE Hk Hs HR) as (q & Hq).
  unfold rust_fn. rewrite Hq. cbn. eauto.
Qed.

End Rec.
