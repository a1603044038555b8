(** Recording and differentiation along the branches a direction selects. *)
From Coq Require Import Reals Lra List Arith ZArith NArith Bool Lia.
From Verif Require Import Base Float Operation Tape AContext Methods Function Spec TapeFacts AContextFacts
  SweepFacts RealInst Param Instances FunctionFacts RecordFacts DerivSpec DerivFacts GenSpec StraightSpec StraightFacts SwitchSpec.
Import ListNotations.
Local Open Scope R_scope.

(** [T]: tangents of all entries along [dx]; [D]: derivatives along [v] on the selected branches;
    [s]: the switching values. *)
Record switch_at (bits : list N) (dx v : list R) (indeps : list nat) (ops : list operation) (vals T D s : list R) : Prop := {
  wa_lenT : length T = length vals;
  wa_lenD : length D = length vals;
  wa_seedT : seeded indeps dx T;
  wa_seedD : seeded indeps v D;
  wa_opT : forall o, In o ops -> tangent_eq Rops vals T o;
  wa_opD : forall o, In o ops -> opcode o <> Abs -> tangent_eq Rops vals D o;
  wa_num : length s = length (filter is_abs ops);
  wa_abs : forall k o, nth_error (filter is_abs ops) k = Some o -> exists i a e d,
    arg1 o = Some i /\ nth_error vals i = Some a /\ nth_error T i = Some e /\ nth_error D i = Some d /\
    nth_error s k = Some (a + e) /\ nth_error D (vid o) = Some (branch bits (firstn k s) (a + e) * d)
}.

Section Sim.
Variables (bits : list N) (dx v : list R) (c : nat).
Definition wst : Type := (inner R * list R * list R)%type.
Definition w_i (w : wst) : inner R := fst (fst w).
Definition w_T (w : wst) : list R := snd (fst w).
Definition w_D (w : wst) : list R := snd w.

Definition sols (w : wst) (s : list R) : Prop :=
  switch_at bits dx v (i_indeps (w_i w)) (i_ops (w_i w)) (i_vals (w_i w)) (w_T w) (w_D w) s.

Definition leW (a b : wst) : Prop :=
  ext (w_i a) (w_i b) /\ (exists l, w_T b = w_T a ++ l) /\ (exists l, w_D b = w_D a ++ l).
Definition RSw (w : wst) (s1 : world R) (s2 : list R) : Prop :=
  w_ctx s1 c = Some (w_i w) /\ recorded_tape (tape_of (w_i w)) /\ sols w s2.
Definition has (w : wst) (k : nat) (y : bval) : Prop :=
  nth_error (i_vals (w_i w)) k = Some (b_val y) /\ nth_error (w_T w) k = Some (b_tan y) /\ nth_error (w_D w) k = Some (b_der y).
Definition RVw (w : wst) (x : AF R) (y : bval) : Prop :=
  af_v x = b_val y /\
  match af_ctx x with
  | None => b_dep y = false /\ b_tan y = 0 /\ b_der y = 0
  | Some (c', k) => b_dep y = true /\ c' = c /\ has w k y
  end.

Lemma leW_refl a : leW a a.
Proof. split; [apply ext_refl|]. split; exists []; now rewrite app_nil_r. Qed.
Lemma leW_trans a b d : leW a b -> leW b d -> leW a d.
Proof.
  intros (H1 & [l1 E1] & [m1 F1]) (H2 & [l2 E2] & [m2 F2]). split; [eapply ext_trans; eauto|].
  split; [exists (l1 ++ l2)|exists (m1 ++ m2)]; rewrite ?E2, ?E1, ?F2, ?F1, app_assoc; auto.
Qed.
Lemma has_mono a b k y : leW a b -> has a k y -> has b k y.
Proof.
  intros (H1 & [l E] & [m F]) (A & B & C). split; [eapply ext_val; eauto|].
  rewrite E, F. auto using nth_error_prefix.
Qed.
Lemma RVw_mono a b x y : leW a b -> RVw a x y -> RVw b x y.
Proof.
  intros H [Hv HH]. split; [auto|]. destruct (af_ctx x) as [[c' k]|]; [|auto].
  destruct HH as (A & B & C). split; [auto|]. split; [auto|]. eapply has_mono; eauto.
Qed.

Definition wpush (w : wst) oc a1 a2 r e d : wst := (push_op (w_i w) oc a1 a2 r, w_T w ++ [e], w_D w ++ [d]).

Lemma leW_push w oc a1 a2 r e d : leW w (wpush w oc a1 a2 r e d).
Proof. split; [apply ext_push_op|]. split; cbn; eauto. Qed.

Lemma firstn_prefix {A} (l l' : list A) k : (k <= length l)%nat -> firstn k (l ++ l') = firstn k l.
Proof. intros H. rewrite firstn_app. replace (k - length l)%nat with 0%nat by lia. cbn. apply app_nil_r. Qed.

Lemma sols_push w s oc a1 a2 r e d : sols w s ->
  tangent_eq Rops (i_vals (w_i w) ++ [r]) (w_T w ++ [e]) (mkOp oc (length (i_vals (w_i w))) a1 a2) ->
  (oc <> Abs -> tangent_eq Rops (i_vals (w_i w) ++ [r]) (w_D w ++ [d]) (mkOp oc (length (i_vals (w_i w))) a1 a2)) ->
  forall s', (oc <> Abs -> s' = s) ->
  (oc = Abs -> exists j y, a1 = Some j /\ has w j y /\ s' = s ++ [b_val y + b_tan y] /\
     d = branch bits s (b_val y + b_tan y) * b_der y) ->
  sols (wpush w oc a1 a2 r e d) s'.
Proof.
  intros [LT LD ST SD OT OD NS A] HT HO s' HS HA. unfold sols, wpush.
  assert (exists l, s' = s ++ l) as (l & El).
  { destruct (opcode_eqb oc Abs) eqn:E.
    - destruct oc; try discriminate E. destruct (HA eq_refl) as (j & y & _ & _ & -> & _). eauto.
    - exists []. rewrite app_nil_r. apply HS. intros ->. discriminate E. }
  constructor; unfold w_i, w_T, w_D in *; cbn [fst snd push_op i_indeps i_ops i_vals].
  - rewrite !app_length. cbn. lia.
  - rewrite !app_length. cbn. lia.
  - intros k j Hk. destruct (ST k j Hk) as (a & H1 & H2). exists a. auto using nth_error_prefix.
  - intros k j Hk. destruct (SD k j Hk) as (a & H1 & H2). exists a. auto using nth_error_prefix.
  - intros o Ho. apply in_app_or in Ho as [Ho|[<-|[]]]; [apply tangent_eq_prefix; auto|exact HT].
  - intros o Ho Hn. apply in_app_or in Ho as [Ho|[<-|[]]]; [apply tangent_eq_prefix; auto|apply HO; exact Hn].
  - rewrite filter_app, app_length. cbn [filter].
    destruct (is_abs (mkOp oc (length (i_vals (fst (fst w)))) a1 a2)) eqn:E.
    + apply is_abs_iff in E. cbn in E. destruct (HA E) as (j & y & _ & _ & -> & _). rewrite app_length. cbn. lia.
    + rewrite HS; [cbn; lia|]. intros ->. discriminate E.
  - intros k o Hk. rewrite filter_app in Hk.
    destruct (Nat.lt_ge_cases k (length (filter is_abs (i_ops (fst (fst w)))))) as [Hl|Hl].
    + rewrite nth_error_app1 in Hk by exact Hl. destruct (A k o Hk) as (j & a & e' & d' & H1 & H2 & H3 & H4 & H5 & H6).
      exists j, a, e', d'. rewrite El, firstn_prefix by lia. auto 8 using nth_error_prefix.
    + rewrite nth_error_app2 in Hk by exact Hl. cbn [filter] in Hk.
      destruct (is_abs (mkOp oc (length (i_vals (fst (fst w)))) a1 a2)) eqn:E.
      2: { destruct (k - _)%nat; discriminate Hk. }
      apply is_abs_iff in E. cbn in E.
      destruct (k - length (filter is_abs (i_ops (fst (fst w)))))%nat as [|q] eqn:Eq; [|destruct q; discriminate Hk].
      injection Hk as <-. assert (k = length s) as -> by lia.
      destruct (HA E) as (j & y & H1 & (H2 & H3 & H4) & -> & ->). exists j, (b_val y), (b_tan y), (b_der y). cbn [arg1 vid].
      split; [auto|]. split; [auto using nth_error_prefix|]. split; [auto using nth_error_prefix|].
      split; [auto using nth_error_prefix|].
      split; [rewrite nth_error_app2, Nat.sub_diag; auto|].
      rewrite firstn_prefix, firstn_all by auto.
      rewrite <- LD, nth_error_app2, Nat.sub_diag; auto.
Qed.

Lemma nth_error_new {A} (l : list A) a k : length l = k -> nth_error (l ++ [a]) k = Some a.
Proof. intros <-. rewrite nth_error_app2, Nat.sub_diag; auto. Qed.

(** A constant pushed as an operand or an output. *)
Lemma const_push w s r : recorded_tape (tape_of (w_i w)) -> sols w s ->
  let w' := wpush w Const None None r 0 0 in
  leW w w' /\ recorded_tape (tape_of (w_i w')) /\ sols w' s /\ has w' (length (i_vals (w_i w))) (b_cst r).
Proof.
  intros HR HS w'. pose proof HS as [LT LD _ _ _ _ _ _].
  split; [apply leW_push|].
  split; [apply recorded_push_op; cbn; auto; try congruence; lia|].
  split.
  { apply sols_push with (s := s); auto; try discriminate; intros; unfold tangent_eq; cbn; apply nth_error_new; auto. }
  split; [|split]; unfold w', wpush, w_i, w_T, w_D in *; cbn; apply nth_error_new; auto.
Qed.

Lemma operand_sw w s x y k i1 :
  RVw w x y -> operand Some (w_i w) x k i1 -> recorded_tape (tape_of (w_i w)) -> sols w s ->
  exists w1, w_i w1 = i1 /\ leW w w1 /\ recorded_tape (tape_of i1) /\ sols w1 s /\ has w1 k y.
Proof.
  intros [Hv H] HO HR HS. unfold operand in HO. destruct (af_ctx x) as [[c' k']|].
  - destruct HO as [-> ->]. destruct H as (_ & _ & H1). exists w. split; [auto|]. split; [apply leW_refl|]. auto.
  - destruct HO as (fv & [= <-] & -> & ->). destruct H as (_ & Hd1 & Hd2).
    destruct (const_push w s (af_v x) HR HS) as (A & B & C & D).
    eexists. split; [|split; [exact A|]]; [reflexivity|]. split; [auto|]. split; [exact C|].
    destruct D as (D1 & D2 & D3). split; [|split]; [rewrite D1|rewrite D2|rewrite D3]; cbn; congruence.
Qed.

Lemma pick_sw w x1 y1 x2 y2 : RVw w x1 x2 -> orel (RVw w) y1 y2 ->
  (pick_cid x1 y1 = Ok None /\ b_dep x2 = false /\ b_tan x2 = 0 /\ b_der x2 = 0 /\ af_ctx x1 = None /\
     match y2 with Some y => b_dep y = false /\ b_tan y = 0 /\ b_der y = 0 | None => True end) \/
  (pick_cid x1 y1 = Ok (Some c) /\ b_dep x2 || match y2 with Some y => b_dep y | None => false end = true).
Proof.
  unfold RVw, orel, pick_cid. intros [_ Hx] Hy.
  destruct (af_ctx x1) as [[c1 k1]|].
  - destruct Hx as (-> & -> & _). destruct y1 as [y1|], y2 as [y2|]; try contradiction; auto.
    destruct Hy as [_ Hy]. destruct (af_ctx y1) as [[c2 k2]|]; auto.
    destruct Hy as (-> & -> & _). rewrite Nat.eqb_refl. cbn; auto.
  - destruct Hx as (-> & Hd1 & Hd2). destruct y1 as [y1|], y2 as [y2|]; try contradiction; auto 10.
    destruct Hy as [_ Hy]. destruct (af_ctx y1) as [[c2 k2]|].
    + destruct Hy as (-> & -> & _). auto.
    + destruct Hy as (-> & Hy). auto 10.
Qed.

Lemma tangent_mk (vals D : list R) oc k1 v2 a d r k (y2 : option (R * R)) :
  arity_ok oc y2 -> nth_error vals k1 = Some a -> nth_error D k1 = Some d -> nth_error D k = Some r ->
  match v2, y2 with
  | Some j, Some p => nth_error vals j = Some (fst p) /\ nth_error D j = Some (snd p)
  | None, None => True
  | _, _ => False
  end ->
  first_order_value Rops oc a (option_map fst y2) d (option_map snd y2) = Ok r ->
  tangent_eq Rops vals D (mkOp oc k (Some k1) v2).
Proof.
  intros HA H1 H2 H3 H4 H5. unfold tangent_eq. cbn [opcode arg1 arg2 vid].
  assert (exists i a d r, Some k1 = Some i /\ nth_error vals i = Some a /\
          nth_error D i = Some d /\ nth_error D k = Some r /\
          match v2 with
          | None => first_order_value Rops oc a None d None = Ok r
          | Some j => exists b e, nth_error vals j = Some b /\ nth_error D j = Some e /\
              first_order_value Rops oc a (Some b) d (Some e) = Ok r
          end) as Q.
  { exists k1, a, d, r. repeat (split; [auto; fail|]). destruct v2, y2; try contradiction; auto.
    destruct H4. eauto. }
  destruct oc; try exact Q; try exact I. destruct y2; discriminate HA.
Qed.

Lemma sim_branch_fop w oc x1 y1 x2 y2 :
  arity_ok oc y1 -> RVw w x1 x2 -> orel (RVw w) y1 y2 ->
  simM false leW RSw RVw w (from_op Rops Some oc x1 y1) (branch_fop bits oc x2 y2).
Proof.
  intros Ha Hx Hy s1 s2 (Hc & Hrec & HS).
  destruct (from_op Rops Some oc x1 y1 s1) as [[r w']|p] eqn:Er; [|discriminate].
  pose proof (pick_sw _ _ _ _ _ Hx Hy) as Hp.
  assert (af_v x1 = b_val x2) as Ev1 by apply Hx.
  assert (option_map af_v y1 = option_map b_val y2) as Ev2.
  { destruct y1, y2; cbn in *; try contradiction; auto. f_equal. apply Hy. }
  assert (arity_ok oc y2) as Ha2 by (destruct y1, y2; cbn in *; auto; contradiction).
  apply from_op_spec in Er as (Hz & _ & D). rewrite Ev1, Ev2 in Hz.
  assert (exists e, first_order_value Rops oc (b_val x2) (option_map b_val y2) (b_tan x2) (option_map b_tan y2) = Ok e) as (e & Ee).
  { apply first_order_value_total. destruct y2; cbn in *; [right; repeat split; auto; discriminate|auto]. }
  assert (exists d, first_order_value Rops oc (b_val x2) (option_map b_val y2) (b_der x2) (option_map b_der y2) = Ok d) as (d & Ed).
  { apply first_order_value_total. destruct y2; cbn in *; [right; repeat split; auto; discriminate|auto]. }
  destruct D as [-> Hd Hn | c0 j i1 i2 v1 v2 fv Ep Ec O1 O2 Et Er Ch].
  - destruct Hp as [(Ep & Ex & Ex0 & Ex1 & Ect & Ey)|(Ep & _)].
    2:{ exfalso. destruct Hn as [Hn|(c0 & Hn & Hn')]; [congruence|]. assert (c0 = c) by congruence. congruence. }
    assert (e = 0) as ->.
    { rewrite Ex0 in Ee. eapply fov_zero; [|exact Ee]. destruct y2 as [y2|]; cbn; auto. right. f_equal. apply Ey. }
    assert (d = 0) as ->.
    { rewrite Ex1 in Ed. eapply fov_zero; [|exact Ed]. destruct y2 as [y2|]; cbn; auto. right. f_equal. apply Ey. }
    exists (mkB (af_v r) 0 0 false), s2, w.
    split.
    { unfold branch_fop. rewrite Hz, Ee. cbn [bind]. rewrite Ex.
      assert ((match y2 with Some y' => b_dep y' | None => false end) = false) as -> by (destruct y2; [apply Ey|auto]).
      rewrite Ed. cbn [bind orb]. destruct oc; reflexivity. }
    split; [apply leW_refl|]. split; [split; [exact Hc|]; split; [exact Hrec|exact HS]|].
    split; [reflexivity|]. rewrite Hd. auto.
  - destruct Hp as [(Ep' & _)|(Ep' & Eb)]; [congruence|].
    assert (c0 = c) by congruence. subst c0. assert (j = w_i w) by congruence. subst j. injection Et as <-.
    destruct (operand_sw w s2 x1 x2 v1 i1 Hx O1 Hrec HS) as (w1 & E1 & M1 & R1 & S1 & T1).
    assert (exists w2, w_i w2 = i2 /\ leW w1 w2 /\ recorded_tape (tape_of i2) /\ sols w2 s2 /\
      match v2, y2 with
      | Some k, Some y => has w2 k y
      | None, None => True
      | _, _ => False
      end) as (w2 & E2 & M2 & R2 & S2 & H2).
    { destruct y1 as [y1|], v2 as [k|], y2 as [y2|]; cbn in O2, Hy; try contradiction.
      - rewrite <- E1 in O2, R1.
        destruct (operand_sw w1 s2 y1 y2 k i2 (RVw_mono _ _ _ _ M1 Hy) O2 R1 S1) as (w2 & A1 & A2 & A3 & A4 & A5).
        exists w2. auto 10.
      - subst i2. exists w1. split; [auto|]. split; [apply leW_refl|]. auto. }
    pose proof (has_mono _ _ _ _ M2 T1) as T1'.
    assert (forall k y, has w2 k y -> (k < length (i_vals i2))%nat) as HL.
    { intros k y (Q & _). rewrite E2 in Q. apply nth_error_Some. congruence. }
    set (d' := match oc with Abs => branch bits s2 (b_val x2 + b_tan x2) * b_der x2 | _ => d end).
    set (s' := match oc with Abs => s2 ++ [b_val x2 + b_tan x2] | _ => s2 end).
    set (w3 := wpush w2 oc (Some v1) v2 (af_v r) e d').
    assert (w_i w3 = push_op i2 oc (Some v1) v2 (af_v r)) as E3 by (unfold w3, wpush, w_i in *; cbn; congruence).
    assert (recorded_tape (tape_of (w_i w3))) as R3.
    { rewrite E3. apply recorded_push_op; auto.
      - unfold wf_op; cbn. pose proof (HL _ _ T1') as L1. destruct v2 as [k|], y2 as [y2|]; try contradiction.
        + apply HL in H2. cbn in Ha2.
          destruct oc; try discriminate; cbn; repeat split; eauto.
        + cbn in Ha2. destruct oc; try discriminate; cbn; repeat split; eauto.
      - destruct y2; cbn in Ha2; destruct oc; discriminate.
      - intros ->. destruct y2; cbn in Ha2; discriminate. }
    destruct T1' as (V1 & V2 & V3). pose proof S2 as [LT LD _ _ _ _ _ _].
    exists (mkB (af_v r) e d' true), s', w3.
    split.
    { unfold branch_fop. rewrite Hz, Ee. cbn [bind].
      destruct oc; unfold s', d'; try (rewrite Ed; cbn [bind]; rewrite Eb; reflexivity).
      destruct y2; [discriminate Ha2|]. rewrite orb_false_r in Eb. rewrite Eb. reflexivity. }
    split.
    { eapply leW_trans; [exact M1|]. eapply leW_trans; [exact M2|]. apply leW_push. }
    split.
    { split; [rewrite E3; apply Ch|]. split; [exact R3|].
      unfold w3. apply sols_push with (s := s2); auto.
      - apply (tangent_mk _ _ oc v1 v2 (b_val x2) (b_tan x2) e _ (option_map (fun y => (b_val y, b_tan y)) y2));
          auto using nth_error_prefix, nth_error_new.
        + destruct y2; cbn; auto.
        + destruct v2, y2; try contradiction; auto. destruct H2 as (B1 & B2 & B3). cbn. auto using nth_error_prefix.
        + destruct y2; exact Ee.
      - intros Hna. assert (d' = d) as -> by (unfold d'; destruct oc; congruence).
        apply (tangent_mk _ _ oc v1 v2 (b_val x2) (b_der x2) d _ (option_map (fun y => (b_val y, b_der y)) y2));
          auto using nth_error_prefix, nth_error_new.
        + destruct y2; cbn; auto.
        + destruct v2, y2; try contradiction; auto. destruct H2 as (B1 & B2 & B3). cbn. auto using nth_error_prefix.
        + destruct y2; exact Ed.
      - intros Hna. unfold s'. destruct oc; congruence.
      - intros ->. exists v1, x2. unfold d', s'. split; [auto|]. split; [|auto]. split; [auto|]. auto. }
    split; [reflexivity|]. rewrite Er. split; [reflexivity|]. split; [reflexivity|].
    rewrite E2 in *. split; [|split]; unfold w3, wpush, w_i, w_T, w_D in *; cbn; rewrite ?E2; apply nth_error_new; auto.
Qed.

(** Outputs. *)
Lemma deps_sw outs : forall ys w w' W s, RVs RVw W outs ys -> w_ctx w c = Some (w_i W) ->
  recorded_tape (tape_of (w_i W)) -> sols W s -> set_dep_slice Some c outs w = Ok (tt, w') ->
  exists W' ds, w_ctx w' c = Some (w_i W') /\ leW W W' /\ recorded_tape (tape_of (w_i W')) /\ sols W' s /\
    i_deps (w_i W') = i_deps (w_i W) ++ ds /\ gather ds (w_T W') = Ok (map b_tan ys) /\ gather ds (w_D W') = Ok (map b_der ys).
Proof.
  induction outs as [|o outs IH]; intros ys w w' W s HR Hc HRec HS H; cbn [set_dep_slice] in H.
  - inversion HR; subst. injection H as <-. exists W, []. rewrite app_nil_r.
    split; [auto|]. split; [apply leW_refl|]. auto.
  - inversion HR as [|? y ? ys' Ho HR']; subst.
    unfold mbind in H. destruct (set_dep Some c o w) as [[[] w1]|] eqn:E; [|discriminate H].
    assert (exists W1 k, w1 = w1 /\ w_ctx w1 c = Some (w_i W1) /\ leW W W1 /\ recorded_tape (tape_of (w_i W1)) /\ sols W1 s /\
      i_deps (w_i W1) = i_deps (w_i W) ++ [k] /\ has W1 k y) as (W1 & k & _ & C1 & L1 & R1 & S1 & D1 & H1).
    { unfold set_dep, with_ctx in E. rewrite Hc in E. destruct Ho as [Hv Ho].
      destruct (af_ctx o) as [[c' k]|] eqn:Eo.
      - destruct Ho as (_ & -> & V). rewrite Nat.eqb_refl in E. cbn in E. injection E as <-.
        exists (push_dep (w_i W) k, w_T W, w_D W), k. split; [auto|].
        split; [cbn; rewrite Nat.eqb_refl; reflexivity|].
        split. { split; [apply ext_push_dep|]. split; exists []; cbn; now rewrite app_nil_r. }
        split. { apply recorded_push_dep; auto. apply nth_error_Some. destruct V. congruence. }
        split; [exact HS|]. split; [reflexivity|exact V].
      - destruct Ho as (_ & Hd1 & Hd2). cbn in E. injection E as <-.
        destruct (const_push W s (af_v o) HRec HS) as (A1 & A2 & A3 & A4).
        set (w0 := wpush W Const None None (af_v o) 0 0) in *.
        exists (push_dep (w_i w0) (length (i_vals (w_i W))), w_T w0, w_D w0), (length (i_vals (w_i W))). split; [auto|].
        split; [cbn; rewrite Nat.eqb_refl; reflexivity|].
        split. { eapply leW_trans; [exact A1|]. split; [apply ext_push_dep|]. split; exists []; cbn; now rewrite app_nil_r. }
        split. { apply recorded_push_dep; auto. apply nth_error_Some. destruct A4. congruence. }
        split; [exact A3|]. split; [reflexivity|].
        destruct A4 as (D1 & D2 & D3). split; [|split]; [etransitivity; [exact D1|]|etransitivity; [exact D2|]|etransitivity; [exact D3|]]; cbn; congruence. }
    destruct (IH ys' w1 w' W1 s) as (W' & ds & A1 & A2 & A3 & A4 & A5 & A6 & A7); auto.
    { eapply RVs_mono; [apply RVw_mono| |exact HR']. exact L1. }
    exists W', (k :: ds). split; [auto|]. split; [eapply leW_trans; eauto|]. split; [auto|]. split; [auto|].
    split; [rewrite A5, D1, <- app_assoc; auto|].
    destruct (has_mono _ _ _ _ A2 H1) as (B1 & B2 & B3).
    unfold gather in *. cbn. rewrite A6, A7, (proj2 (get_ok _ _ _) B2), (proj2 (get_ok _ _ _) B3). auto.
Qed.
End Sim.

Lemma inputs_sw bits c (x dx v : list R) : length dx = length x -> length v = length x ->
  RVs (RVw c) (i_in x, dx, v) (mk_inputs Rops c 0 x) (b_inputs x dx v) /\
  sols bits dx v (i_in x, dx, v) [].
Proof.
  intros L L'. split.
  - assert (forall s y e u, length e = length y -> length u = length y ->
      (forall k, nth_error y k = nth_error x (s + k)) -> (forall k, nth_error e k = nth_error dx (s + k)) ->
      (forall k, nth_error u k = nth_error v (s + k)) ->
      RVs (RVw c) (i_in x, dx, v) (mk_inputs Rops c s y) (b_inputs y e u)) as H.
    { intros s y; revert s; induction y as [|a y IH]; intros s e u Le Lu Hy He Hu;
        destruct e as [|b e]; try discriminate Le; destruct u as [|d u]; try discriminate Lu; [constructor|].
      cbn. constructor.
      - unfold RVw, has, w_i, w_T, w_D. cbn. repeat (split; [auto; fail|]).
        pose proof (Hy 0%nat) as A. pose proof (He 0%nat) as B. pose proof (Hu 0%nat) as C. cbn in A, B, C.
        rewrite Nat.add_0_r in A, B, C. auto.
      - apply IH; [injection Le; auto|injection Lu; auto| | |].
        + intros k. specialize (Hy (S k)). cbn in Hy. rewrite Hy. f_equal. lia.
        + intros k. specialize (He (S k)). cbn in He. rewrite He. f_equal. lia.
        + intros k. specialize (Hu (S k)). cbn in Hu. rewrite Hu. f_equal. lia. }
    apply H; auto.
  - assert (forall u : list R, length u = length x -> seeded (seq 0 (length x)) u u) as HSd.
    { intros u Lu k i Hk. assert (k < length x)%nat as Hl.
      { rewrite <- (seq_length (length x) 0). apply nth_error_Some. congruence. }
      rewrite (nth_error_nth' _ 0%nat) in Hk by (rewrite seq_length; auto). rewrite seq_nth in Hk by auto. injection Hk as <-.
      destruct (nth_error u k) as [a|] eqn:E; [exists a; auto|]. apply nth_error_None in E. lia. }
    constructor; unfold w_i, w_T, w_D; cbn; auto; try contradiction. intros [|]; discriminate.
Qed.

(** What recording and differentiating along branches have in common. *)
Theorem branch_recorded bits (f : func R) x dx v w t w' : fn_tape Rops f x w = Ok (t, w') ->
  length dx = length x -> length v = length x ->
  exists ys s T D, branch_eval bits f x dx v = Ok (ys, s) /\
    switch_at bits dx v (t_indeps t) (t_ops t) (t_vals t) T D s /\
    gather (t_deps t) T = Ok (map b_tan ys) /\ gather (t_deps t) D = Ok (map b_der ys).
Proof.
  intros HT L L'. apply fn_tape_inv in HT.
  destruct HT as (w1 & w2 & w3 & outs & i & Ch & E1 & E2 & E3 & -> & _).
  assert (Hin : w_ctx w1 (w_next w) = Some (i_in x)) by apply Ch.
  destruct (inputs_sw bits (w_next w) x dx v L L') as [HI HS].
  assert (H := sim_feval Rops (from_op Rops Some) (af_const Rops) af_v (branch_fop bits) b_cst b_val false
    leW (RSw bits dx v (w_next w)) (RVw (w_next w)) leW_refl leW_trans (RVw_mono (w_next w)) (sim_branch_fop bits dx v (w_next w))).
  specialize (H (fun w0 c0 => conj eq_refl (conj eq_refl (conj eq_refl eq_refl))) f (or_introl (fun w0 a b HR => proj1 HR))
    (i_in x, dx, v) _ _ HI w1 []).
  unfold eval in E1. rewrite E1 in H.
  destruct H as (ys & s & W2 & Ey & M & (A1 & A2 & A3) & HR).
  { split; [auto|]. split; [apply recorded_i_in|exact HS]. }
  destruct (deps_sw bits dx v (w_next w) outs ys w2 w3 W2 s HR A1 A2 A3 E2) as (W' & ds & B1 & B2 & B3 & B4 & B5 & B6 & B7).
  assert (w_i W' = i) as Ei by congruence.
  pose proof (eval_keeps_io Rops f _ _ _ _ E1) as [Hd _]. specialize (Hd (w_next w)). rewrite Hin, A1 in Hd. cbn in Hd. injection Hd as Hd.
  rewrite <- Hd in B5. cbn in B5.
  exists ys, s, (w_T W'), (w_D W'). split; [exact Ey|].
  unfold sols in B4. rewrite Ei in *. split; [exact B4|]. cbn [t_deps tape_of]. rewrite B5. auto.
Qed.
