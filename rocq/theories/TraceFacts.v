(** The calls of Trace.v have the effect of [fn_tape]. *)
From Coq Require Import List Arith ZArith Bool Lia.
From Verif Require Import Base Float Operation Tape TapeFacts AContext AContextFacts Methods Function Spec Param Api ApiFacts ReplayFacts ApiFacts2
  Concurrent Client Trace.
Import ListNotations.

Section TraceFacts.
Context {F : Type} (Fo : Fops F).
Notation api := (api F F). Notation history := (@history F F Fo Some).
Notation quiet := (@quiet F).

Definition no_lookup (k : call F) : Prop := forall c, k <> CLookup c.

Definition leT (s s' : api) : Prop :=
  (exists l, a_vars s' = a_vars s ++ l) /\ a_handles s' = a_handles s /\ a_tapes s' = a_tapes s.
Definition RST (s : api) (w : world F) (st : tlog) : Prop :=
  w = a_world s /\ quiet s /\ fst st = length (a_vars s) /\ history api0 (snd st) s /\ Forall no_lookup (snd st).
Definition RVT (s : api) (x : AF F) (y : tv) : Prop :=
  af_v x = tv_v y /\ match tv_i y with Some i => nth_error (a_vars s) i = Some x | None => x = af_const Fo (tv_v y) end.

Lemma leT_refl s : leT s s.
Proof. split; [exists []; rewrite app_nil_r; auto|auto]. Qed.
Lemma leT_trans a b c : leT a b -> leT b c -> leT a c.
Proof.
  intros ((l1 & E1) & G1 & T1) ((l2 & E2) & G2 & T2). split; [|split; congruence].
  exists (l1 ++ l2). rewrite E2, E1, app_assoc; auto.
Qed.
Lemma RVT_mono s s' x y : leT s s' -> RVT s x y -> RVT s' x y.
Proof.
  intros ((l & E) & _) [H1 H2]. split; auto. destruct (tv_i y); auto. rewrite E. apply nth_error_app_some; auto.
Qed.

Lemma nl_snoc ks k : Forall no_lookup ks -> no_lookup k -> Forall no_lookup (ks ++ [k]).
Proof. intros. apply Forall_app; auto. Qed.

Lemma history_snoc s ks s1 k s2 r : history s ks s1 -> wf_call k -> Api.step Fo Some s1 k = Some (s2, r) ->
  history s (ks ++ [k]) s2.
Proof. intros. econstructor; eauto. Qed.

Lemma place_ok s w st x y : RST s w st -> RVT s x y ->
  exists s', leT s s' /\ a_world s' = a_world s /\ RST s' w (snd (place Fo y st)) /\
    nth_error (a_vars s') (fst (place Fo y st)) = Some x.
Proof.
  intros (-> & Q & En & Hh & NL) [Hv Hx]. unfold place. destruct (tv_i y) as [i|]; cbn.
  - exists s. split; [apply leT_refl|]. split; [auto|]. split; [split; auto|auto].
  - subst x. exists (push_var s (af_const Fo (tv_v y)) false).
    split; [split; [exists [af_const Fo (tv_v y)]; auto|auto]|].
    split; [auto|]. split.
    + split; [auto|]. split; [auto|]. cbn. rewrite app_length, En. cbn. split; [auto|].
      split; [|apply nl_snoc; [auto|discriminate]].
      eapply history_snoc; [exact Hh|exact I|]. reflexivity.
    + cbn. rewrite En. rewrite nth_error_app2, Nat.sub_diag; auto.
Qed.

Lemma sim_t_fop s oc x1 y1 x2 y2 :
  arity_ok oc y1 -> RVT s x1 x2 -> orel (RVT s) y1 y2 ->
  simM false leT RST RVT s (from_op Fo Some oc x1 y1) (t_fop Fo oc x2 y2).
Proof.
  intros Ha Hx Hy w st HS.
  destruct (from_op Fo Some oc x1 y1 w) as [[r w']|p] eqn:E; [|discriminate].
  unfold t_fop. destruct (place_ok _ _ _ _ _ HS Hx) as (s1 & L1 & W1 & S1 & N1).
  destruct (place Fo x2 st) as [i st1]. cbn in S1, N1.
  assert (exists s2 j st2, (match y2 with
                   | None => (None, st1)
                   | Some y' => let '(j, st') := place Fo y' st1 in (Some j, st')
                   end) = (j, st2) /\ leT s1 s2 /\ a_world s2 = a_world s1 /\ RST s2 w st2 /\
      match y1, j with None, None => True | Some b, Some j => nth_error (a_vars s2) j = Some b | _, _ => False end)
    as (s2 & j & st2 & -> & L2 & W2 & S2 & N2).
  { destruct y1 as [y1|], y2 as [y2|]; cbn in Hy; try contradiction.
    - destruct (place_ok s1 w st1 y1 y2 S1 (RVT_mono _ _ _ _ L1 Hy)) as (s2 & L2 & W2 & S2 & N2).
      destruct (place Fo y2 st1) as [j st2]. cbn in S2, N2. exists s2, (Some j), st2. auto.
    - exists s1, None, st1. split; [auto|]. split; [apply leT_refl|]. auto. }
  assert (af_v x1 = tv_v x2) as <- by apply Hx.
  assert (option_map af_v y1 = option_map tv_v y2) as <-
    by (destruct y1, y2; cbn in *; try contradiction; auto; f_equal; apply Hy).
  pose proof E as E0. apply from_op_spec in E0 as (Hz & _). rewrite Hz.
  destruct S2 as (-> & Q2 & En2 & Hh2 & NL2).
  exists (mkTv (af_v r) (Some (fst st2))), (fst st2 + 1, snd st2 ++ [COp oc i j]), (push_var (set_world s2 w') r false).
  split; [reflexivity|].
  assert (N1' : nth_error (a_vars s2) i = Some x1).
  { destruct L2 as ((l & ->) & _). apply nth_error_app_some; auto. }
  split; [|split; [split; [auto|split; [auto|split; [|split]]]|]].
  - eapply leT_trans; [exact L1|]. eapply leT_trans; [exact L2|]. split; [|auto]. exists [r]; auto.
  - cbn. rewrite app_length, En2. cbn. auto.
  - eapply (history_snoc _ _ _ (COp oc i j) _ None); [exact Hh2| |].
    + cbn. destruct y1, j; try contradiction; auto.
    + cbn [Api.step]. rewrite N1'.
      assert ((match j with
             | None => Some None
             | Some j => match nth_error (a_vars s2) j with Some b => Some (Some b) | None => None end
             end) = Some y1) as ->.
      { destruct y1, j; try contradiction; auto. rewrite N2; auto. }
      assert ((match pick_cid x1 y1 with
               | Ok (Some c) => match w_ctx (a_world s2) c with
                                | Some _ => Api.a_poison s2 c | None => false end
               | _ => false end) = false) as ->.
      { destruct (pick_cid x1 y1) as [[c|]|]; auto. destruct (w_ctx (a_world s2) c); auto. }
      rewrite E. reflexivity.
  - apply nl_snoc; [auto|discriminate].
  - split; [auto|]. cbn. rewrite En2, nth_error_app2, Nat.sub_diag; auto.
Qed.

Lemma in_ok x : forall s s0 ks c ys w', history s0 ks s -> quiet s -> handle s 0 = Some c ->
  set_indeps Some c (map (af_const Fo) x) (a_world s) = Ok (ys, w') ->
  exists s', history s0 (ks ++ in_calls Fo (length (a_vars s)) x) s' /\ quiet s' /\ a_world s' = w' /\
    a_vars s' = a_vars s ++ ys /\ a_handles s' = a_handles s /\ a_tapes s' = a_tapes s /\ map af_v ys = x.
Proof.
  induction x as [|v x IH]; intros s s0 ks c ys w' Hh Q Hc E; cbn [map set_indeps in_calls] in *.
  - injection E as <- <-. exists s. rewrite !app_nil_r. auto 10.
  - unfold mbind in E. destruct (set_indep Some c (af_const Fo v) (a_world s)) as [[y w1]|p] eqn:E1; [|discriminate].
    destruct (set_indeps Some c (map (af_const Fo) x) w1) as [[ys' w2]|p] eqn:E2; [|discriminate].
    injection E as <- <-.
    set (sa := push_var s (af_new v (f_zero Fo)) false).
    set (sb := put_var (set_world sa w1) (length (a_vars s)) y false).
    assert (a_vars sb = a_vars s ++ [y]) as Hb by (cbn; apply update_app_last).
    destruct (IH sb s0 ((ks ++ [CVar v (f_zero Fo)]) ++ [CIndep 0 (length (a_vars s))]) c ys' w2) as (s' & H1 & H2 & H3 & H4 & H5 & H6 & H7); auto.
    + eapply history_snoc; [eapply history_snoc; [exact Hh|exact I|reflexivity]|exact I|].
      cbn [Api.step]. fold sa. change (handle sa 0) with (handle s 0). rewrite Hc.
      assert (nth_error (a_vars sa) (length (a_vars s)) = Some (af_const Fo v)) as ->
        by (cbn; rewrite nth_error_app2, Nat.sub_diag; auto).
      change (Api.a_poison sa c) with (Api.a_poison s c). rewrite (Q c).
      change (a_world sa) with (a_world s). rewrite E1. reflexivity.
    + exists s'. rewrite Hb, app_length in H1. cbn in H1. rewrite <- !app_assoc in H1. cbn in H1.
      split; [exact H1|]. split; [auto|]. split; [auto|]. split; [rewrite H4, Hb, <- app_assoc; auto|].
      split; [rewrite H5; auto|]. split; [rewrite H6; auto|]. cbn. f_equal; auto.
      unfold set_indep, with_ctx in E1. destruct (w_ctx (a_world s) c); [|discriminate]. cbn in E1.
      injection E1 as <- _. reflexivity.
Qed.

Lemma out_ok outs : forall tvs s w st c w', RST s w st -> handle s 0 = Some c -> Forall2 (RVT s) outs tvs ->
  set_dep_slice Some c outs w = Ok (tt, w') ->
  exists s', history api0 (snd (out_calls Fo tvs st)) s' /\ quiet s' /\ a_world s' = w' /\
    a_handles s' = a_handles s /\ a_tapes s' = a_tapes s /\
    Forall no_lookup (snd (out_calls Fo tvs st)).
Proof.
  induction outs as [|o outs IH]; intros tvs s w st c w' HS Hc HF E; inversion HF as [|? t ? tvs' Ho HF']; subst; cbn in *.
  - injection E as <-. destruct HS as (-> & Q & En & Hh & NL). exists s. auto 10.
  - destruct (place_ok _ _ _ _ _ HS Ho) as (s1 & L1 & W1 & S1 & N1).
    destruct (place Fo t st) as [i st1]. cbn in S1, N1.
    unfold mbind in E. destruct (set_dep Some c o w) as [[[] w1]|p] eqn:E1; [|discriminate].
    destruct S1 as (-> & Q1 & En1 & Hh1 & NL1).
    destruct L1 as ((l1 & LV) & LH & LT).
    set (s2 := set_world s1 w1).
    destruct (IH tvs' s2 w1 (emit (CDep 0 i) st1) c w') as (s' & H1 & H2 & H3 & H4 & H5 & H6); auto.
    + split; [auto|]. split; [auto|]. split; [auto|]. cbn. split; [|apply nl_snoc; [auto|discriminate]]. eapply history_snoc; [exact Hh1|exact I|].
      cbn [Api.step]. assert (handle s1 0 = Some c) as -> by (unfold handle in *; rewrite LH; auto).
      rewrite N1. rewrite (Q1 c). rewrite E1. reflexivity.
    + unfold s2, handle in *. cbn. rewrite LH. auto.
    + eapply Forall2_impl; [|exact HF']. intros a b. apply RVT_mono. split; [exists l1; auto|auto].
    + exists s'. cbn in H4, H5. split; [auto|]. split; [auto|]. split; [auto|].
      split; [congruence|]. split; [congruence|auto].
Qed.

Theorem fn_calls_ok f x t w' : fn_tape Fo f x world0 = Ok (t, w') ->
  exists ks s, fn_calls Fo f x = Ok ks /\ history api0 ks s /\ a_tapes s = [t] /\ Forall no_lookup ks.
Proof.
  unfold fn_tape. cbn [mbind ctx_new]. unfold mbind at 1.
  set (w0 := mkWorld _ _).
  destruct (set_indeps Some (w_next world0) (map (af_const Fo) x) w0) as [[ys w1]|p] eqn:E1; [|discriminate].
  unfold mbind at 1.
  destruct (eval Fo f ys w1) as [[outs w2]|p] eqn:E2; [|discriminate]. unfold mbind at 1.
  destruct (set_dep_slice Some (w_next world0) outs w2) as [[[] w3]|p] eqn:E3; [|discriminate].
  unfold mbind at 1.
  destruct (ctx_tape (w_next world0) w3) as [[t' w4]|p] eqn:E4; [|discriminate]. cbn. intros [= <- _].
  set (c := w_next (@world0 F)) in *.
  assert (exists s0, history api0 [CNew] s0 /\ quiet s0 /\ a_world s0 = w0 /\ a_vars s0 = [] /\ handle s0 0 = Some c /\
            a_tapes s0 = []) as (s0 & H0 & Q0 & W0 & V0 & C0 & T0).
  { eexists. split; [eapply (history_snoc api0 [] api0); [constructor|exact I|reflexivity]|]. cbn. repeat split. }
  rewrite <- W0 in E1.
  destruct (in_ok x s0 api0 [CNew] c ys w1 H0 Q0 C0 E1) as (s1 & H1 & Q1 & W1 & V1 & A1 & T1 & M1).
  rewrite V0 in H1, V1. cbn in H1, V1.
  assert (forall k y, nth_error ys k = Some y -> nth_error (a_vars s1) k = Some y) as HN by (intros; rewrite V1; auto).
  assert (Forall2 (RVT s1) ys (in_vars 0 x)) as HI.
  { assert (forall i ys' x', map af_v ys' = x' -> (forall k y, nth_error ys' k = Some y -> nth_error (a_vars s1) (i + k) = Some y) ->
              Forall2 (RVT s1) ys' (in_vars i x')) as G.
    { intros i ys'; revert i; induction ys' as [|y ys' IH]; intros i x' <- Hk; cbn; constructor.
      - split; [auto|]. cbn. specialize (Hk 0 y eq_refl). rewrite Nat.add_0_r in Hk. auto.
      - apply IH; auto. intros k z Hz. replace (i + 1 + k) with (i + Datatypes.S k) by lia. apply Hk. auto. }
    apply G; auto. }
  assert (H : simM false leT RST (RVs RVT) s1 (eval Fo f ys) (feval Fo (t_fop Fo) (fun c => mkTv c None) tv_v f (in_vars 0 x))).
  { apply sim_feval.
    - apply leT_refl.
    - apply leT_trans.
    - apply RVT_mono.
    - apply sim_t_fop.
    - intros w v. split; reflexivity.
    - left. intros ? ? ? [-> _]; auto.
    - exact HI. }
  specialize (H w1 (length x, CNew :: in_calls Fo 0 x)). rewrite E2 in H.
  destruct H as (tvs & st & s2 & Ef & (LV & LH & LT) & S2 & HR).
  { split; [auto|]. split; [auto|]. split; [cbn; rewrite V1, <- M1, map_length; auto|].
    split; [exact H1|]. constructor; [discriminate|]. clear. generalize 0.
    induction x as [|v x IH]; intros i; cbn; repeat constructor; auto; discriminate. }
  assert (handle s2 0 = Some c) as C2 by (unfold handle in *; rewrite LH, A1; auto).
  destruct (out_ok outs tvs s2 w2 st c w3 S2 C2 HR E3) as (s3 & H3 & Q3 & W3 & A3 & T3 & NL3).
  assert (handle s3 0 = Some c) as C3 by (unfold handle in *; rewrite A3; auto).
  eexists _, _. unfold fn_calls. rewrite Ef. split; [reflexivity|]. split.
  - replace [CTape 0; CDrop 0] with ([@CTape F 0] ++ [CDrop 0]) by auto. rewrite app_assoc.
    eapply history_snoc; [eapply history_snoc; [exact H3|exact I|]|exact I|].
    + cbn [Api.step]. rewrite C3, (Q3 c), W3, E4. reflexivity.
    + cbn [Api.step]. match goal with |- context [handle ?s 0] => change (handle s 0) with (handle s3 0) end. rewrite C3. reflexivity.
  - split; [cbn; rewrite T3, LT, T1, T0; reflexivity|].
    apply Forall_app. split; [auto|]. repeat constructor; discriminate.
Qed.

(** A list of calls run alone. *)
Lemma alone_calls ks s s' : history s ks s' -> forall ks2 o,
  (s_tapes o = a_tapes s) ->
  exists o', s_tapes o' = a_tapes s' /\ alone Fo Some (calls (ks ++ ks2) o) s = alone Fo Some (calls ks2 o') s'.
Proof.
  intros H. induction H as [|ks s1 k s2 r H IH Wk E]; intros ks2 o Ho.
  - exists o. auto.
  - rewrite <- app_assoc. cbn [app]. destruct (IH (k :: ks2) o Ho) as (o1 & H1 & ->).
    exists (looks s2 r). split; [reflexivity|]. cbn [calls alone]. rewrite E. reflexivity.
Qed.

Lemma calls_alone ks s t : history api0 ks s -> a_tapes s = [t] ->
  alone Fo Some (calls ks (mkSeen None [] [])) api0 = RTape t.
Proof.
  intros H Ht. destruct (alone_calls ks api0 s H [] (mkSeen None [] []) eq_refl) as (o & Ho & E).
  rewrite app_nil_r in E. rewrite E. cbn. rewrite Ho, Ht. reflexivity.
Qed.

Lemma calls_private ks s s' : history s ks s' -> Forall no_lookup ks -> forall o : seen F F, private (calls ks o).
Proof.
  intros H. assert (Forall (@wf_call F) ks) as W by (induction H; [constructor|apply Forall_app; auto]).
  clear H. intros HN. induction W as [|k ks Hk W IH]; intros o; cbn; [|apply Forall_cons_iff in HN as [HN1 HN]].
  - destruct (rev (s_tapes o)); exact I.
  - assert (forall o : seen F F, private (calls ks o)) as HI by (apply IH; auto).
    destruct k; auto. exfalso. eapply HN1. reflexivity.
Qed.

End TraceFacts.
