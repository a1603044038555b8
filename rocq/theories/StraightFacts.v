(** Recording and differentiation with prescribed slopes. *)
From Coq Require Import Reals Lra List Arith ZArith NArith Bool Lia.
From Verif Require Import Base Float Operation Tape AContext Methods Function Spec TapeFacts AContextFacts
  SweepFacts RealInst Param Instances FunctionFacts RecordFacts DerivSpec DerivFacts StraightSpec.
Import ListNotations.
Local Open Scope R_scope.

Lemma nth_error_prefix {A} (l l' : list A) k a : nth_error l k = Some a -> nth_error (l ++ l') k = Some a.
Proof. intros H. rewrite nth_error_app1; auto. apply nth_error_Some. congruence. Qed.

Lemma tangent_eq_prefix (vals D : list R) l l' o : tangent_eq Rops vals D o -> tangent_eq Rops (vals ++ l) (D ++ l') o.
Proof.
  unfold tangent_eq. destruct (opcode o); auto using nth_error_prefix;
  intros (i & a & d & r & A1 & A2 & A3 & A4 & A5); exists i, a, d, r;
  (split; [auto|]); (split; [auto using nth_error_prefix|]); (split; [auto using nth_error_prefix|]); (split; [auto using nth_error_prefix|]);
  (destruct (arg2 o); [|auto]); destruct A5 as (b & e & B1 & B2 & B3); exists b, e; auto using nth_error_prefix.
Qed.

(** [D]: derivatives of all entries, the k-th abs having the slope [sg k z]. *)
Record straight_at (sg : nat -> R -> R) (v : list R) (indeps : list nat) (ops : list operation) (vals D : list R) : Prop := {
  sa_len : length D = length vals;
  sa_seed : seeded indeps v D;
  sa_op : forall o, In o ops -> opcode o <> Abs -> tangent_eq Rops vals D o;
  sa_abs : forall k o, nth_error (filter is_abs ops) k = Some o -> exists i a d,
    arg1 o = Some i /\ nth_error vals i = Some a /\ nth_error D i = Some d /\ nth_error D (vid o) = Some (sg k a * d)
}.

Section Sim.
Variables (sg : nat -> R -> R) (v : list R) (c : nat).

Definition solved (i : inner R) (D : list R) : Prop := straight_at sg v (i_indeps i) (i_ops i) (i_vals i) D.
Definition nabs (i : inner R) : nat := length (filter is_abs (i_ops i)).

Definition leD (a b : inner R * list R) : Prop := ext (fst a) (fst b) /\ exists l, snd b = snd a ++ l.
Definition RSd (w : inner R * list R) (s1 : world R) (s2 : nat) : Prop :=
  w_ctx s1 c = Some (fst w) /\ recorded_tape (tape_of (fst w)) /\ s2 = nabs (fst w) /\ solved (fst w) (snd w).
Definition RVd (w : inner R * list R) (x : AF R) (y : sval) : Prop :=
  af_v x = s_val y /\
  match af_ctx x with
  | None => s_dep y = false /\ s_der y = 0
  | Some (c', k) => s_dep y = true /\ c' = c /\ nth_error (i_vals (fst w)) k = Some (s_val y) /\
      nth_error (snd w) k = Some (s_der y)
  end.

Lemma leD_refl a : leD a a.
Proof. split; [apply ext_refl|]. exists []. now rewrite app_nil_r. Qed.
Lemma leD_trans a b d : leD a b -> leD b d -> leD a d.
Proof. intros [H1 [l1 E1]] [H2 [l2 E2]]. split; [eapply ext_trans; eauto|]. exists (l1 ++ l2). rewrite E2, E1, app_assoc. auto. Qed.
Lemma RVd_mono a b x y : leD a b -> RVd a x y -> RVd b x y.
Proof.
  intros [H1 [l E]] [Hv H]. split; [auto|]. destruct (af_ctx x) as [[c' k]|]; [|auto].
  destruct H as (A & B & C & D). split; [auto|]. split; [auto|]. split; [eapply ext_val; eauto|].
  rewrite E. apply nth_error_prefix. auto.
Qed.

Lemma nabs_push i oc a1 a2 (r : R) : nabs (push_op i oc a1 a2 r) = (nabs i + if opcode_eqb oc Abs then 1 else 0)%nat.
Proof.
  unfold nabs, push_op. cbn. rewrite filter_app, app_length. f_equal. cbn. unfold is_abs. cbn. destruct oc; reflexivity.
Qed.

Lemma solved_push i D oc a1 a2 r d : solved i D ->
  (oc <> Abs -> tangent_eq Rops (i_vals i ++ [r]) (D ++ [d]) (mkOp oc (length (i_vals i)) a1 a2)) ->
  (oc = Abs -> exists j a e, a1 = Some j /\ nth_error (i_vals i) j = Some a /\ nth_error D j = Some e /\ d = sg (nabs i) a * e) ->
  solved (push_op i oc a1 a2 r) (D ++ [d]).
Proof.
  intros [L S O A] HO HA. constructor; cbn [push_op i_indeps i_ops i_vals].
  - rewrite !app_length. cbn. lia.
  - intros k j Hk. destruct (S k j Hk) as (a & H1 & H2). exists a. auto using nth_error_prefix.
  - intros o Ho Hn. apply in_app_or in Ho as [Ho|[<-|[]]].
    + apply tangent_eq_prefix. auto.
    + apply HO. exact Hn.
  - intros k o Hk. rewrite filter_app in Hk. destruct (Nat.lt_ge_cases k (nabs i)) as [Hl|Hl].
    + rewrite nth_error_app1 in Hk by exact Hl. destruct (A k o Hk) as (j & a & e & H1 & H2 & H3 & H4).
      exists j, a, e. auto 6 using nth_error_prefix.
    + rewrite nth_error_app2 in Hk by exact Hl. unfold nabs in *. cbn [filter] in Hk.
      destruct (is_abs (mkOp oc (length (i_vals i)) a1 a2)) eqn:E.
      2: { destruct (k - _)%nat; discriminate Hk. }
      apply is_abs_iff in E. cbn in E.
      destruct (k - length (filter is_abs (i_ops i)))%nat as [|q] eqn:Eq; [|destruct q; discriminate Hk].
      injection Hk as <-. assert (k = length (filter is_abs (i_ops i))) as -> by lia.
      destruct (HA E) as (j & a & e & H1 & H2 & H3 & ->). exists j, a, e. cbn [arg1 vid].
      split; [auto|]. split; [auto using nth_error_prefix|]. split; [auto using nth_error_prefix|].
      rewrite <- L, nth_error_app2, Nat.sub_diag; auto.
Qed.

Lemma operand_sim i D x y k i1 :
  RVd (i, D) x y -> operand Some i x k i1 -> recorded_tape (tape_of i) -> solved i D ->
  exists D1, leD (i, D) (i1, D1) /\ recorded_tape (tape_of i1) /\ solved i1 D1 /\ nabs i1 = nabs i /\ (k < length (i_vals i1))%nat /\
    nth_error (i_vals i1) k = Some (s_val y) /\ nth_error D1 k = Some (s_der y).
Proof.
  intros [Hv H] HO HR HS. unfold operand in HO. destruct (af_ctx x) as [[c' k']|].
  - destruct HO as [-> ->]. destruct H as (_ & _ & H1 & H2). exists D. split; [apply leD_refl|].
    repeat (split; [auto; fail|]). split; [apply nth_error_Some; cbn in H1; congruence|auto].
  - destruct HO as (fv & [= <-] & -> & ->). destruct H as (_ & Hd). exists (D ++ [0]).
    assert (length D = length (i_vals i)) as LD by apply HS.
    split; [split; [apply ext_push_op|cbn; eauto]|].
    split; [apply recorded_push_op; cbn; auto; try congruence; lia|].
    split.
    { apply solved_push; auto; [|discriminate]. intros _. unfold tangent_eq. cbn.
      rewrite <- LD, nth_error_app2, Nat.sub_diag; auto. }
    split; [rewrite nabs_push; cbn; lia|]. split; [cbn; rewrite app_length; cbn; lia|].
    cbn. split.
    + rewrite nth_error_app2, Nat.sub_diag; auto. cbn. congruence.
    + rewrite <- LD, nth_error_app2, Nat.sub_diag; auto. cbn. congruence.
Qed.

Lemma pick_here w x1 y1 x2 y2 : RVd w x1 x2 -> orel (RVd w) y1 y2 ->
  (pick_cid x1 y1 = Ok None /\ s_dep x2 = false /\ s_der x2 = 0 /\ af_ctx x1 = None /\
     match y2 with Some y => s_dep y = false /\ s_der y = 0 | None => True end) \/
  (pick_cid x1 y1 = Ok (Some c) /\ s_dep x2 || match y2 with Some y => s_dep y | None => false end = true).
Proof.
  unfold RVd, orel, pick_cid. intros [_ Hx] Hy.
  destruct (af_ctx x1) as [[c1 k1]|].
  - destruct Hx as (-> & -> & _). destruct y1 as [y1|], y2 as [y2|]; try contradiction; auto.
    destruct Hy as [_ Hy]. destruct (af_ctx y1) as [[c2 k2]|]; auto.
    destruct Hy as (-> & -> & _). rewrite Nat.eqb_refl. cbn; auto.
  - destruct Hx as (-> & Hd). destruct y1 as [y1|], y2 as [y2|]; try contradiction; auto 10.
    destruct Hy as [_ Hy]. destruct (af_ctx y1) as [[c2 k2]|].
    + destruct Hy as (-> & -> & _). auto.
    + destruct Hy as (-> & Hy). auto 10.
Qed.

Lemma fov_zero oc a b e r : (e = None \/ e = Some 0) -> first_order_value Rops oc a b 0 e = Ok r -> r = 0.
Proof.
  intros He E. pose proof (fv_0 oc a b e) as Z. unfold fv in Z. rewrite E in Z. apply Z.
  destruct He as [->| ->]; [discriminate|]. intros d [= <-]; auto.
Qed.

Lemma sim_straight_fop w oc x1 y1 x2 y2 :
  arity_ok oc y1 -> RVd w x1 x2 -> orel (RVd w) y1 y2 ->
  simM false leD RSd RVd w (from_op Rops Some oc x1 y1) (straight_fop sg oc x2 y2).
Proof.
  intros Ha Hx Hy s1 s2 (Hc & Hrec & -> & HS).
  destruct (from_op Rops Some oc x1 y1 s1) as [[r w']|p] eqn:Er; [|discriminate].
  pose proof (pick_here _ _ _ _ _ Hx Hy) as Hp.
  assert (af_v x1 = s_val x2) as Ev1 by apply Hx.
  assert (option_map af_v y1 = option_map s_val y2) as Ev2.
  { destruct y1, y2; cbn in *; try contradiction; auto. f_equal. apply Hy. }
  assert (arity_ok oc y2) as Ha2 by (destruct y1, y2; cbn in *; auto; contradiction).
  apply from_op_spec in Er as (Hz & _ & D). rewrite Ev1, Ev2 in Hz.
  assert (exists d, first_order_value Rops oc (s_val x2) (option_map s_val y2) (s_der x2) (option_map s_der y2) = Ok d) as (d & Ef).
  { apply first_order_value_total. destruct y2; cbn in *; [right; repeat split; auto; discriminate|auto]. }
  destruct w as [i D0]. cbn [fst snd] in *.
  destruct D as [-> Hd Hn | c0 j i1 i2 v1 v2 fv Ep Ec O1 O2 Et Er Ch].
  - destruct Hp as [(Ep & Ex & Ex0 & Ect & Ey)|(Ep & _)].
    2:{ exfalso. destruct Hn as [Hn|(c0 & Hn & Hn')]; [congruence|]. assert (c0 = c) by congruence. congruence. }
    exists (af_v r, 0, false), (nabs i), (i, D0).
    split.
    { unfold straight_fop. rewrite Hz. cbn [bind]. rewrite Ex.
      assert (d = 0) as ->.
      { rewrite Ex0 in Ef. eapply fov_zero; [|exact Ef]. destruct y2 as [y2|]; cbn; auto. right. f_equal. apply Ey. }
      assert ((match y2 with Some y' => s_dep y' | None => false end) = false) as -> by (destruct y2; [apply Ey|auto]).
      rewrite Ef. cbn [bind orb]. destruct oc; reflexivity. }
    split; [apply leD_refl|]. split; [split; [exact Hc|]; split; [exact Hrec|]; split; [reflexivity|exact HS]|].
    split; [reflexivity|]. rewrite Hd. auto.
  - destruct Hp as [(Ep' & _)|(Ep' & Eb)]; [congruence|].
    assert (c0 = c) by congruence. subst c0. assert (j = i) by congruence. subst j. injection Et as <-.
    destruct (operand_sim i D0 x1 x2 v1 i1 Hx O1 Hrec HS) as (D1 & M1 & R1 & S1 & N1 & L1 & V1 & T1).
    assert (exists D2, leD (i1, D1) (i2, D2) /\ recorded_tape (tape_of i2) /\ solved i2 D2 /\ nabs i2 = nabs i1 /\
      match v2, y2 with
      | Some k, Some y => (k < length (i_vals i2))%nat /\ nth_error (i_vals i2) k = Some (s_val y) /\ nth_error D2 k = Some (s_der y)
      | None, None => True
      | _, _ => False
      end) as (D2 & M2 & R2 & S2 & N2 & H2).
    { destruct y1 as [y1|], v2 as [k|], y2 as [y2|]; cbn in O2, Hy; try contradiction.
      - destruct (operand_sim i1 D1 y1 y2 k i2 (RVd_mono _ _ _ _ M1 Hy) O2 R1 S1) as (D2 & A1 & A2 & A3 & A4 & A5 & A6 & A7).
        exists D2. auto 10.
      - subst i2. exists D1. split; [apply leD_refl|]. auto. }
    assert (v1 < length (i_vals i2))%nat as L1' by (pose proof (ext_len _ _ (proj1 M2)); cbn in *; lia).
    assert (nth_error (i_vals i2) v1 = Some (s_val x2)) as V1' by (eapply ext_val; [apply (proj1 M2)|exact V1]).
    assert (nth_error D2 v1 = Some (s_der x2)) as T1'.
    { destruct M2 as [_ [l E]]. cbn in E. rewrite E. apply nth_error_prefix. auto. }
    assert (length D2 = length (i_vals i2)) as LD by apply S2.
    set (i3 := push_op i2 oc (Some v1) v2 (af_v r)) in *.
    assert (recorded_tape (tape_of i3)) as R3.
    { apply recorded_push_op; auto.
      - unfold wf_op; cbn. destruct v2 as [k|], y2 as [y2|]; try contradiction.
        + destruct H2 as [H2 _]. cbn in Ha2.
          destruct oc; try discriminate; cbn; repeat split; eauto.
        + cbn in Ha2. destruct oc; try discriminate; cbn; repeat split; eauto.
      - destruct y2; cbn in Ha2; destruct oc; discriminate.
      - intros ->. destruct y2; cbn in Ha2; discriminate. }
    set (d' := match oc with Abs => sg (nabs i) (s_val x2) * s_der x2 | _ => d end).
    exists (af_v r, d', true), (nabs i3), (i3, D2 ++ [d']).
    split.
    { unfold straight_fop. rewrite Hz. cbn [bind]. unfold i3. rewrite nabs_push, N2, N1.
      destruct oc; cbn [opcode_eqb] in *; try (rewrite Ef; cbn [bind]; rewrite Eb, Nat.add_0_r; reflexivity).
      destruct y2; [discriminate Ha2|]. rewrite orb_false_r in Eb. rewrite Eb, Nat.add_1_r. reflexivity. }
    split.
    { eapply leD_trans; [exact M1|]. eapply leD_trans; [exact M2|]. split; [apply ext_push_op|cbn; eauto]. }
    split.
    { split; [apply Ch|]. split; [exact R3|]. split; [reflexivity|]. cbn [fst snd]. apply solved_push; auto.
      - intros Hna. assert (d' = d) as -> by (unfold d'; destruct oc; congruence).
        assert (nth_error (i_vals i2 ++ [af_v r]) v1 = Some (s_val x2)) as Q1 by auto using nth_error_prefix.
        assert (nth_error (D2 ++ [d]) v1 = Some (s_der x2)) as Q2 by auto using nth_error_prefix.
        assert (nth_error (D2 ++ [d]) (length (i_vals i2)) = Some d) as Q3
          by (rewrite <- LD, nth_error_app2, Nat.sub_diag; auto).
        unfold tangent_eq. cbn [opcode arg1 arg2 vid].
        assert (exists i0 a d0 r0, Some v1 = Some i0 /\ nth_error (i_vals i2 ++ [af_v r]) i0 = Some a /\
          nth_error (D2 ++ [d]) i0 = Some d0 /\ nth_error (D2 ++ [d]) (length (i_vals i2)) = Some r0 /\
          match v2 with
          | None => first_order_value Rops oc a None d0 None = Ok r0
          | Some j => exists b e, nth_error (i_vals i2 ++ [af_v r]) j = Some b /\ nth_error (D2 ++ [d]) j = Some e /\
              first_order_value Rops oc a (Some b) d0 (Some e) = Ok r0
          end) as Q.
        { exists v1, (s_val x2), (s_der x2), d. repeat (split; [auto; fail|]).
          destruct v2 as [k|], y2 as [y2|]; try contradiction; [|exact Ef].
          destruct H2 as (_ & B1 & B2). exists (s_val y2), (s_der y2). auto using nth_error_prefix. }
        destruct oc; try exact Q; try congruence; (destruct y2; discriminate Ha2).
      - intros ->. exists v1, (s_val x2), (s_der x2). unfold d'. rewrite N2, N1. auto. }
    split; [reflexivity|]. rewrite Er. cbn [fst snd]. split; [reflexivity|]. split; [reflexivity|].
    split.
    + cbn. rewrite nth_error_app2, Nat.sub_diag; auto.
    + change (s_der (af_v r, d', true)) with d'. rewrite <- LD, nth_error_app2, Nat.sub_diag; auto.
Qed.

(** Outputs. *)
Lemma deps_sim outs : forall ys w w' i D, RVs RVd (i, D) outs ys -> w_ctx w c = Some i ->
  recorded_tape (tape_of i) -> solved i D -> set_dep_slice Some c outs w = Ok (tt, w') ->
  exists i' D' ds, w_ctx w' c = Some i' /\ leD (i, D) (i', D') /\ recorded_tape (tape_of i') /\ solved i' D' /\
    i_deps i' = i_deps i ++ ds /\ gather ds D' = Ok (map s_der ys).
Proof.
  induction outs as [|o outs IH]; intros ys w w' i D HR Hc HRec HS H; cbn [set_dep_slice] in H.
  - inversion HR; subst. injection H as <-. exists i, D, []. rewrite app_nil_r.
    split; [auto|]. split; [apply leD_refl|]. auto.
  - inversion HR as [|? y ? ys' Ho HR']; subst.
    unfold mbind in H. destruct (set_dep Some c o w) as [[[] w1]|] eqn:E; [|discriminate H].
    unfold set_dep, with_ctx in E. rewrite Hc in E. destruct Ho as [Hv Ho].
    destruct (af_ctx o) as [[c' k]|] eqn:Eo.
    + destruct Ho as (_ & -> & V & T). rewrite Nat.eqb_refl in E. cbn in E. injection E as <-.
      assert (k < length (i_vals i))%nat as Hk by (apply nth_error_Some; cbn in V; congruence).
      match type of H with set_dep_slice _ _ _ ?ww = _ =>
        destruct (IH ys' ww w' (push_dep i k) D) as (i' & D' & ds & A1 & A2 & A3 & A4 & A5 & A6); [| | | |exact H|] end.
      { eapply RVs_mono; [apply RVd_mono| |exact HR']. split; [apply ext_push_dep|]. exists []. cbn. now rewrite app_nil_r. }
      { cbn. now rewrite Nat.eqb_refl. } { apply recorded_push_dep; auto. } { exact HS. }
      exists i', D', (k :: ds). split; [auto|].
      split; [eapply leD_trans; [|exact A2]; split; [apply ext_push_dep|]; exists []; cbn; now rewrite app_nil_r|].
      split; [auto|]. split; [auto|]. split; [rewrite A5; cbn; rewrite <- app_assoc; auto|].
      unfold gather in *. cbn. rewrite A6. cbn in T. destruct A2 as [_ [l El]]. cbn in El.
      rewrite (proj2 (get_ok _ _ _) (eq_trans (f_equal (fun z => nth_error z k) El) (nth_error_prefix _ l _ _ T))). reflexivity.
    + destruct Ho as (_ & Hd). cbn in E. injection E as <-.
      set (i0 := push_op i Const None None (af_v o)) in *.
      assert (length D = length (i_vals i)) as LD by apply HS.
      assert (recorded_tape (tape_of i0)) as R0 by (apply recorded_push_op; cbn; auto; try congruence; lia).
      assert (solved i0 (D ++ [0])) as S0.
      { apply solved_push; auto; [|discriminate]. intros _. unfold tangent_eq. cbn. rewrite <- LD, nth_error_app2, Nat.sub_diag; auto. }
      assert (leD (i, D) (push_dep i0 (length (i_vals i)), D ++ [0])) as M0.
      { split; [eapply ext_trans; [apply ext_push_op|apply ext_push_dep]|]. cbn. eauto. }
      match type of H with set_dep_slice _ _ _ ?ww = _ =>
        destruct (IH ys' ww w' (push_dep i0 (length (i_vals i))) (D ++ [0])) as (i' & D' & ds & A1 & A2 & A3 & A4 & A5 & A6); [| | | |exact H|] end.
      { eapply RVs_mono; [apply RVd_mono| |exact HR']. exact M0. }
      { cbn. now rewrite Nat.eqb_refl. } { apply recorded_push_dep; auto. cbn. rewrite app_length. cbn. lia. } { exact S0. }
      exists i', D', (length (i_vals i) :: ds). split; [auto|].
      split; [eapply leD_trans; [exact M0|exact A2]|].
      split; [auto|]. split; [auto|]. split; [rewrite A5; cbn; rewrite <- app_assoc; auto|].
      unfold gather in *. cbn. rewrite A6. destruct A2 as [_ [l El]]. cbn in El.
      assert (nth_error D' (length (i_vals i)) = Some 0) as T.
      { rewrite El. apply nth_error_prefix. rewrite <- LD, nth_error_app2, Nat.sub_diag; auto. }
      rewrite (proj2 (get_ok _ _ _) T). cbn. rewrite Hd. reflexivity.
Qed.
End Sim.

Lemma inputs_sim sg c (x v : list R) : length v = length x ->
  RVs (RVd c) (i_in x, v) (mk_inputs Rops c 0 x) (map (fun p => (fst p, snd p, true)) (combine x v)) /\
  solved sg v (i_in x) v.
Proof.
  intros L. split.
  - assert (forall s y u, length u = length y ->
      (forall k, nth_error y k = nth_error x (s + k)) -> (forall k, nth_error u k = nth_error v (s + k)) ->
      RVs (RVd c) (i_in x, v) (mk_inputs Rops c s y) (map (fun p => (fst p, snd p, true)) (combine y u))) as H.
    { intros s y; revert s; induction y as [|a y IH]; intros s u Lu Hy Hu; destruct u as [|b u]; try discriminate Lu; [constructor|].
      cbn. constructor.
      - unfold RVd. cbn. repeat (split; [auto; fail|]).
        pose proof (Hy 0%nat) as A. pose proof (Hu 0%nat) as B. cbn in A, B. rewrite Nat.add_0_r in A, B. auto.
      - apply IH; [injection Lu; auto| |].
        + intros k. specialize (Hy (S k)). cbn in Hy. rewrite Hy. f_equal. lia.
        + intros k. specialize (Hu (S k)). cbn in Hu. rewrite Hu. f_equal. lia. }
    apply H; auto.
  - constructor; cbn; auto.
    + intros k i Hk. assert (k < length x)%nat as Hl.
      { rewrite <- (seq_length (length x) 0). apply nth_error_Some. congruence. }
      rewrite (nth_error_nth' _ 0%nat) in Hk by (rewrite seq_length; auto). rewrite seq_nth in Hk by auto. injection Hk as <-.
      destruct (nth_error v k) as [a|] eqn:E; [exists a; auto|]. apply nth_error_None in E. lia.
    + contradiction.
    + intros [|]; discriminate.
Qed.

(** What recording and differentiating with prescribed slopes have in common. *)
Theorem straight_recorded sg (f : func R) x v w t w' : fn_tape Rops f x w = Ok (t, w') -> length v = length x ->
  exists dy D, straight_derivative sg f x v = Ok dy /\
    straight_at sg v (t_indeps t) (t_ops t) (t_vals t) D /\ gather (t_deps t) D = Ok dy.
Proof.
  intros HT L. apply fn_tape_inv in HT.
  destruct HT as (w1 & w2 & w3 & outs & i & Ch & E1 & E2 & E3 & -> & _).
  assert (Hin : w_ctx w1 (w_next w) = Some (i_in x)) by apply Ch.
  destruct (inputs_sim sg (w_next w) x v L) as [HI HS].
  assert (H := sim_feval Rops (from_op Rops Some) (af_const Rops) af_v (straight_fop sg) s_cst s_val false
    leD (RSd sg v (w_next w)) (RVd (w_next w)) leD_refl leD_trans (RVd_mono (w_next w)) (sim_straight_fop sg v (w_next w))).
  specialize (H (fun w0 c0 => conj eq_refl (conj eq_refl eq_refl)) f (or_introl (fun w0 a b HR => proj1 HR))
    (i_in x, v) _ _ HI w1 O).
  unfold eval in E1. rewrite E1 in H.
  destruct H as (ys & k & [i2 D2] & Ey & M & (A1 & A2 & A3 & A4) & HR).
  { split; [auto|]. split; [apply recorded_i_in|]. split; [reflexivity|exact HS]. }
  cbn [fst snd] in *.
  destruct (deps_sim sg v (w_next w) outs ys w2 w3 i2 D2 HR A1 A2 A4 E2) as (i' & D' & ds & B1 & B2 & B3 & B4 & B5 & B6).
  assert (i' = i) as -> by congruence.
  pose proof (eval_keeps_io Rops f _ _ _ _ E1) as [Hd _]. specialize (Hd (w_next w)). rewrite Hin, A1 in Hd. cbn in Hd. injection Hd as Hd.
  rewrite <- Hd in B5. cbn in B5.
  exists (map s_der ys), D'. split; [unfold straight_derivative; rewrite Ey; reflexivity|].
  split; [exact B4|]. cbn [t_deps tape_of]. rewrite B5. exact B6.
Qed.
