(** The main simulation: the tape recorded by [fn_tape] computes, at any point and in any
    direction, what evaluating the function there computes. *)
From Coq Require Import List Arith ZArith Bool Lia Sorted.
From Verif Require Import Base Float Operation Tape AContext Methods Function Spec Param
  TapeFacts AContextFacts Instances FunctionFacts.
Import ListNotations.

Section Record.
Context {F : Type} (Fo : Fops F).
Context (x' dx : list F) (c : nat).

(** [arr], [darr] solve all equations recorded so far, for the inputs [x'], [dx]. *)
Definition sols (i : inner F) (arr darr : list F) : Prop :=
  seeded (i_indeps i) x' arr /\ seeded (i_indeps i) dx darr /\
  forall o, In o (i_ops i) ->
    value_eq Fo arr o /\ tangent_eq Fo arr darr o /\
    (opcode o = Const -> forall a, nth_error (i_vals i) (vid o) = Some a ->
                                   nth_error arr (vid o) = Some a).

Lemma seeded_app ids l (x arr : list F) : seeded (ids ++ l) x arr -> seeded ids x arr.
Proof.
  intros H k i Hk. apply H. rewrite nth_error_app1; auto.
  apply nth_error_Some; congruence.
Qed.

Lemma sols_ext i i' arr darr : ext i i' -> sols i' arr darr -> sols i arr darr.
Proof.
  intros E (H1 & H2 & H3). pose proof E as ([l1 E1] & _ & [l3 E3] & _).
  rewrite E1 in H1, H2. split; [eapply seeded_app; eauto|]. split; [eapply seeded_app; eauto|].
  intros o Ho. destruct (H3 o) as (A & B & C); [eapply ext_op; eauto|].
  split; [auto|split; auto]. intros HC a Ha. apply C; auto. eapply ext_val; eauto.
Qed.

Definition W : Type := (inner F * Prop)%type.
Definition leW (a b : W) : Prop := ext (fst a) (fst b) /\ (snd b -> snd a).
Definition RSr (w : W) (s1 : world F) (s2 : Prop) : Prop :=
  w_ctx s1 c = Some (fst w) /\ recorded_tape (tape_of (fst w)) /\ s2 = snd w.
Definition RVr (w : W) (x : AF F) (y : (F * F) * bool) : Prop :=
  match af_ctx x with
  | None => snd y = true /\ af_v x = fst (fst y) /\ (snd w -> snd (fst y) = f_zero Fo)
  | Some (c', k) =>
      snd y = false /\ c' = c /\ k < length (i_vals (fst w)) /\
      forall arr darr, sols (fst w) arr darr ->
        nth_error arr k = Some (fst (fst y)) /\
        (snd w -> nth_error darr k = Some (snd (fst y)))
  end.

Lemma leW_refl a : leW a a.
Proof. split; auto. apply ext_refl. Qed.

Lemma leW_trans a b d : leW a b -> leW b d -> leW a d.
Proof. intros [H1 H2] [H3 H4]. split; auto. eapply ext_trans; eauto. Qed.

Lemma RVr_mono a b x y : leW a b -> RVr a x y -> RVr b x y.
Proof.
  intros [H1 H2]. unfold RVr. destruct (af_ctx x) as [[c' k]|].
  - intros (A & B & C & D). split; [auto|]. split; [auto|]. split.
    + pose proof (ext_len _ _ H1). lia.
    + intros arr darr HS. apply (sols_ext _ _ _ _ H1) in HS.
      destruct (D _ _ HS) as [D1 D2]. auto.
  - intros (A & B & C). auto.
Qed.

(** The id an operand gets carries the operand's value and tangent. *)
Lemma operand_rel w x y k i1 :
  RVr w x y -> operand Some (fst w) x k i1 -> recorded_tape (tape_of (fst w)) ->
  ext (fst w) i1 /\ recorded_tape (tape_of i1) /\ k < length (i_vals i1) /\
  forall i2 arr darr, ext i1 i2 -> sols i2 arr darr ->
    nth_error arr k = Some (fst (fst y)) /\ (snd w -> nth_error darr k = Some (snd (fst y))).
Proof.
  unfold RVr, operand. intros HR HO HRec. destruct (af_ctx x) as [[c' k']|].
  - destruct HO as [-> ->]. destruct HR as (A & B & C & D).
    split; [apply ext_refl|]. split; [auto|]. split; [auto|].
    intros i2 arr darr E HS. apply D. eapply sols_ext; eauto.
  - destruct HO as (fv & [= <-] & -> & ->). destruct HR as (A & B & C).
    split; [apply ext_push_op|].
    split; [apply recorded_push_op; cbn; auto; try congruence; lia|].
    split; [cbn; rewrite app_length; cbn; lia|].
    intros i2 arr darr E HS. apply (sols_ext _ _ _ _ E) in HS.
    destruct HS as (_ & _ & HS).
    destruct (HS (mkOp Const (length (i_vals (fst w))) None None)) as (_ & T & K).
    { cbn. apply in_or_app; right; left; auto. }
    cbn in T, K. split.
    + rewrite (K eq_refl (af_v x)); [congruence|].
      rewrite nth_error_app2, Nat.sub_diag; auto.
    + intros HP. rewrite T. rewrite C; auto.
Qed.

Lemma pick_same_ctx w x1 y1 x2 y2 :
  RVr w x1 x2 -> orel (RVr w) y1 y2 ->
  (pick_cid x1 y1 = Ok None /\ snd x2 = true /\
     (match y2 with Some y => snd y | None => true end) = true) \/
  (pick_cid x1 y1 = Ok (Some c) /\
     snd x2 && (match y2 with Some y => snd y | None => true end) = false).
Proof.
  unfold RVr, orel, pick_cid.
  destruct (af_ctx x1) as [[c1 k1]|].
  - intros (-> & -> & _). destruct y1 as [y1|], y2 as [y2|]; try contradiction; auto.
    destruct (af_ctx y1) as [[c2 k2]|]; auto.
    intros (-> & -> & _). rewrite Nat.eqb_refl. cbn; auto.
  - intros (-> & _). destruct y1 as [y1|], y2 as [y2|]; try contradiction; auto.
    destruct (af_ctx y1) as [[c2 k2]|].
    + intros (-> & -> & _). auto.
    + intros (-> & _); auto.
Qed.

Lemma sim_rec_fop w oc x1 y1 x2 y2 :
  arity_ok oc y1 -> RVr w x1 x2 -> orel (RVr w) y1 y2 ->
  simM true leW RSr RVr w (from_op Fo Some oc x1 y1) (k_fop Fo oc x2 y2).
Proof.
  intros Ha Hx Hy s1 s2 (Hc & Hrec & ->).
  assert (arity_ok oc y2) as Ha2
    by (destruct y1, y2; cbn in *; auto; contradiction).
  assert (exists r, d_fop Fo oc (fst x2) (option_map fst y2) tt = Ok (r, tt) /\
    zero_order_value Fo oc (fst (fst x2)) (option_map fst (option_map fst y2)) = Ok (fst r) /\
    first_order_value Fo oc (fst (fst x2)) (option_map fst (option_map fst y2)) (snd (fst x2))
      (option_map snd (option_map fst y2)) = Ok (snd r)) as ([v d] & Ek & Ez & Ef).
  { unfold d_fop, mbind, mlift.
    destruct (zero_order_value_total Fo oc (fst (fst x2)) (option_map fst (option_map fst y2)))
      as [v Ev].
    { destruct y2; cbn in *; [right; split; auto; discriminate|auto]. }
    destruct (first_order_value_total Fo oc (fst (fst x2)) (option_map fst (option_map fst y2))
       (snd (fst x2)) (option_map snd (option_map fst y2))) as [d Ed].
    { destruct y2; cbn in *; [right; repeat split; auto; discriminate|auto]. }
    rewrite Ev, Ed. exists (v, d). auto. }
  cbn [fst snd] in Ez, Ef.
  unfold k_fop. rewrite Ek.
  pose proof (pick_same_ctx _ _ _ _ _ Hx Hy) as Hp.
  destruct (from_op_total Fo Some oc x1 y1 s1) as [(p & Hp1 & _)|(r & w' & Er)]; auto.
  { intros s; discriminate. }
  { destruct Hp as [(E & _)|(E & _)]; congruence. }
  rewrite Er.
  apply from_op_spec in Er as (Hz & Hf & D).
  destruct D as [-> Hd Hn | c0 i i1 i2 v1 v2 fv Ep Ec O1 O2 Et Er Ch].
  - destruct Hp as [(Ep & Ex & Ey)|(Ep & _)].
    2:{ exfalso. destruct Hn as [Hn|(c0 & Hn & Hn')]; [congruence|].
        assert (c0 = c) by congruence. congruence. }
    rewrite Ex, Ey. cbn.
    exists ((v, d), true), (snd w /\ d = f_zero Fo), (fst w, snd w /\ d = f_zero Fo).
    split; [reflexivity|]. split; [split; cbn; [apply ext_refl|tauto]|].
    split; [split; auto|].
    unfold RVr. rewrite Hd. cbn. split; [auto|]. split; [|tauto].
    assert (af_v x1 = fst (fst x2) /\ option_map af_v y1 = option_map fst (option_map fst y2))
      as [E1 E2].
    { clear -Hx Hy Ex Ey. unfold RVr, orel in *.
      destruct (af_ctx x1) as [[? ?]|]; [destruct Hx; congruence|].
      split; [tauto|]. destruct y1 as [y1|], y2 as [y2|]; try contradiction; auto.
      destruct (af_ctx y1) as [[? ?]|]; [destruct Hy; congruence|].
      cbn. f_equal. tauto. }
    rewrite E1, E2 in Hz. congruence.
  - destruct Hp as [(Ep' & _)|(Ep' & Eb)]; [congruence|].
    assert (c0 = c) by congruence. subst c0.
    assert (i = fst w) by congruence. subst i.
    rewrite Eb. injection Et as <-.
    destruct (operand_rel _ _ _ _ _ Hx O1 Hrec) as (X1 & R1 & L1 & S1).
    assert (ext i1 i2 /\ recorded_tape (tape_of i2) /\
      match v2, y2 with
      | Some k, Some y => k < length (i_vals i2) /\
          forall i3 arr darr, ext i2 i3 -> sols i3 arr darr ->
            nth_error arr k = Some (fst (fst y)) /\
            (snd w -> nth_error darr k = Some (snd (fst y)))
      | None, None => True
      | _, _ => False
      end) as (X2 & R2 & H2).
    { destruct y1 as [y1|], v2 as [k|], y2 as [y2|]; cbn in O2, Hy; try contradiction.
      - assert (RVr (i1, snd w) y1 y2) as Hy'.
        { eapply RVr_mono; [|exact Hy]. split; auto. }
        destruct (operand_rel _ _ _ _ _ Hy' O2 R1) as (X2 & R2 & L2 & S2).
        split; [auto|]. split; auto.
      - subst i2. split; [apply ext_refl|]. auto. }
    set (i3 := push_op i2 oc (Some v1) v2 (af_v r)) in *.
    assert (ext i2 i3) as X3 by apply ext_push_op.
    assert (v1 < length (i_vals i2)) as L1' by (pose proof (ext_len _ _ X2); lia).
    assert (recorded_tape (tape_of i3)) as R3.
    { apply recorded_push_op; auto.
      - unfold wf_op; cbn. destruct v2 as [k|], y2 as [y2|]; try contradiction.
        + destruct H2 as [H2 _]. cbn in Ha2.
          destruct oc; try discriminate; cbn; repeat split; eauto.
        + cbn in Ha2. destruct oc; try discriminate; cbn; repeat split; eauto.
      - destruct y2; cbn in Ha2; destruct oc; discriminate.
      - intros ->. destruct y2; cbn in Ha2; discriminate. }
    exists ((v, d), false), (snd w), (i3, snd w).
    assert (ext (fst w) i3) as X by (eapply ext_trans; [eauto|]; eapply ext_trans; eauto).
    split; [reflexivity|]. split; [split; cbn; auto|].
    split; [split; [apply Ch|]; auto|].
    unfold RVr. rewrite Er. cbn [fst snd]. split; [auto|]. split; [auto|].
    split; [cbn; rewrite app_length; cbn; lia|].
    intros arr darr HS.
    destruct (S1 i3 arr darr) as [V1 D1]; auto; [eapply ext_trans; eauto|].
    pose proof HS as (_ & _ & HO).
    destruct (HO (mkOp oc (length (i_vals i2)) (Some v1) v2)) as (Vq & Tq & _).
    { cbn. apply in_or_app; right; left; auto. }
    assert (oc <> Nop /\ oc <> Const) as [NN NC]
      by (destruct y2; cbn in Ha2; destruct oc; try discriminate; split; discriminate).
    assert (exists a r, nth_error arr v1 = Some a /\ nth_error arr (length (i_vals i2)) = Some r /\
      match v2 with
      | None => zero_order_value Fo oc a None = Ok r
      | Some j => exists b, nth_error arr j = Some b /\ zero_order_value Fo oc a (Some b) = Ok r
      end) as (a & ra & Va & Vr & Vz).
    { unfold value_eq in Vq; cbn in Vq.
      destruct oc; try congruence;
        destruct Vq as (i & a & r' & [= <-] & Q1 & Q2 & Q3); exists a, r'; auto. }
    apply tangent_eq_inv in Tq; auto. cbn in Tq.
    destruct Tq as (i & a' & da & dr & [= <-] & Ta & Td & Tr & Tz).
    assert (a = fst (fst x2)) by congruence. subst a.
    assert (a' = fst (fst x2)) by congruence. subst a'.
    destruct v2 as [k|], y2 as [y2|]; try contradiction.
    + destruct H2 as [_ H2]. destruct (H2 i3 arr darr X3 HS) as [V2 D2].
      destruct Vz as (b & Vb & Vz). assert (b = fst (fst y2)) by congruence. subst b.
      destruct Tz as (b & e & Tb & Te & Tz). assert (b = fst (fst y2)) by congruence. subst b.
      cbn in Ez, Ef. split; [congruence|].
      intros HP. specialize (D1 HP). specialize (D2 HP).
      assert (da = snd (fst x2)) by congruence. assert (e = snd (fst y2)) by congruence.
      subst. congruence.
    + cbn in Ez, Ef. split; [congruence|].
      intros HP. specialize (D1 HP). assert (da = snd (fst x2)) by congruence.
      subst. congruence.
Qed.

Lemma RVr_cst w v : RVr w (af_const Fo v) (k_cst Fo v).
Proof. unfold RVr; cbn. auto. Qed.

(** ** Inputs *)
Definition mk_inputs (s : nat) (x : list F) : list (AF F) :=
  map (fun p => mkAF (snd p) (f_zero Fo) (Some (c, fst p))) (combine (seq s (length x)) x).

Lemma set_indeps_spec x : forall w i,
  w_ctx w c = Some i ->
  exists w' , set_indeps Some c (map (af_const Fo) x) w =
      Ok (mk_inputs (length (i_vals i)) x, w') /\
    changes c i (mkInner (i_indeps i ++ seq (length (i_vals i)) (length x)) (i_deps i) (i_ops i)
                         (i_vals i ++ x)) w w'.
Proof.
  induction x as [|a x IH]; intros w i Hc; cbn [map set_indeps].
  - exists w. split; [reflexivity|]. repeat split; auto. rewrite Hc. f_equal.
    destruct i; cbn. rewrite !app_nil_r. auto.
  - unfold mbind. unfold set_indep at 1, with_ctx. rewrite Hc. cbn.
    set (i1 := mkInner (i_indeps i ++ [length (i_vals i)]) (i_deps i) (i_ops i) (i_vals i ++ [a])).
    destruct (IH (upd_ctx w c (Some i1)) i1) as (w' & E & Ch).
    { cbn. rewrite Nat.eqb_refl. auto. }
    rewrite E. exists w'. cbn. split.
    + f_equal. f_equal. unfold mk_inputs; cbn. rewrite app_length; cbn. rewrite Nat.add_1_r. auto.
    + eapply changes_trans; [apply (changes_upd c i i1); eauto|].
      replace (mkInner (i_indeps i ++ length (i_vals i) :: seq (S (length (i_vals i))) (length x))
        (i_deps i) (i_ops i) (i_vals i ++ a :: x)) with
        (mkInner (i_indeps i1 ++ seq (length (i_vals i1)) (length x)) (i_deps i1) (i_ops i1)
                 (i_vals i1 ++ x)); [exact Ch|].
      cbn. rewrite <- !app_assoc. cbn. rewrite app_length; cbn. rewrite Nat.add_1_r. auto.
Qed.

Lemma recorded_indeps_ext (i : inner F) l s :
  recorded_tape (tape_of i) -> s = length (i_vals i) ->
  recorded_tape (tape_of (mkInner (i_indeps i ++ seq s (length l)) (i_deps i)
                            (i_ops i) (i_vals i ++ l))).
Proof.
  revert i s; induction l as [|a l IH]; intros i s HR ->; cbn.
  - rewrite !app_nil_r. destruct i; auto.
  - specialize (IH (push_indep i a) (S (length (i_vals i)))).
    cbn in IH. rewrite <- !app_assoc in IH. cbn in IH. apply IH.
    + apply recorded_push_indep; auto.
    + rewrite app_length; cbn; lia.
Qed.

Definition i_in (x : list F) : inner F := mkInner (seq 0 (length x)) [] [] x.

Lemma recorded_i_in x : recorded_tape (tape_of (i_in x)).
Proof. apply (recorded_indeps_ext (mkInner [] [] [] []) x 0); auto. apply recorded_empty. Qed.

Lemma inputs_rel x P :
  length x' = length x -> length dx = length x ->
  RVs RVr (i_in x, P) (mk_inputs 0 x) (map (fun xd => (xd, false)) (combine x' dx)).
Proof.
  intros L1 L2.
  assert (forall s y xx dd, length xx = length y -> length dd = length y ->
    (forall k, nth_error xx k = nth_error x' (s + k)) ->
    (forall k, nth_error dd k = nth_error dx (s + k)) ->
    s + length y = length x ->
    RVs RVr (i_in x, P) (mk_inputs s y) (map (fun xd => (xd, false)) (combine xx dd))) as H.
  { intros s y; revert s; induction y as [|a y IH]; intros s xx dd A B C D E.
    - destruct xx; [constructor|discriminate].
    - destruct xx as [|b xx]; [discriminate|]. destruct dd as [|e dd]; [discriminate|].
      cbn in *. constructor.
      + unfold RVr; cbn. split; [auto|]. split; [auto|]. split; [lia|].
        intros arr darr (H1 & H2 & _). cbn in H1, H2.
        assert (nth_error (seq 0 (length x)) s = Some s) as Hs.
        { rewrite (nth_error_nth' _ 0) by (rewrite seq_length; lia).
          rewrite seq_nth by lia. auto. }
        destruct (H1 s s Hs) as (u & U1 & U2). destruct (H2 s s Hs) as (u' & U1' & U2').
        specialize (C 0). specialize (D 0). cbn in C, D. rewrite Nat.add_0_r in C, D.
        split; [congruence|]. intros _; congruence.
      + apply IH; auto; try lia.
        * intros k. specialize (C (S k)). cbn in C. rewrite C. f_equal. lia.
        * intros k. specialize (D (S k)). cbn in D. rewrite D. f_equal. lia. }
  apply H; auto.
Qed.

(** ** Outputs *)
Lemma set_dep_slice_spec P outs ys : forall w i,
  RVs RVr (i, P) outs ys -> w_ctx w c = Some i -> recorded_tape (tape_of i) ->
  exists w' i' ds, set_dep_slice Some c outs w = Ok (tt, w') /\ changes c i i' w w' /\
    ext i i' /\ recorded_tape (tape_of i') /\ i_deps i' = i_deps i ++ ds /\
    i_indeps i' = i_indeps i /\
    length ds = length outs /\
    (length outs = length outs -> forall arr darr i'', ext i' i'' -> sols i'' arr darr -> forall j d, nth_error ds j = Some d ->
      exists y, nth_error ys j = Some y /\ nth_error arr d = Some (fst (fst y)) /\
        (P -> nth_error darr d = Some (snd (fst y)))).
Proof.
  revert ys; induction outs as [|o outs IH]; intros ys w i HR Hc HRec; cbn [set_dep_slice].
  - exists w, i, []. inversion HR; subst. split; [reflexivity|].
    split; [repeat split; auto|]. split; [apply ext_refl|]. split; [auto|].
    split; [rewrite app_nil_r; auto|]. split; [auto|]. split; [auto|].
    intros _ arr darr i'' _ _ j d; destruct j; discriminate.
  - inversion HR as [|? y ? ys' Ho HR']; subst.
    unfold mbind.
    assert (exists w1 i1 d, set_dep Some c o w = Ok (tt, w1) /\ changes c i i1 w w1 /\ ext i i1 /\
      recorded_tape (tape_of i1) /\ i_deps i1 = i_deps i ++ [d] /\ i_indeps i1 = i_indeps i /\
      forall arr darr i'', ext i1 i'' -> sols i'' arr darr ->
        nth_error arr d = Some (fst (fst y)) /\ (P -> nth_error darr d = Some (snd (fst y))))
      as (w1 & i1 & d & E & Ch & X & R1 & Hd & HI & HS).
    { unfold set_dep, with_ctx. rewrite Hc. unfold RVr in Ho; cbn in Ho.
      destruct (af_ctx o) as [[c' k]|].
      - destruct Ho as (_ & -> & Hk & HS). rewrite Nat.eqb_refl. cbn.
        eexists _, (push_dep i k), k. split; [reflexivity|].
        split; [apply changes_upd; auto|]. split; [apply ext_push_dep|].
        split; [apply recorded_push_dep; auto|]. split; [reflexivity|]. split; [reflexivity|].
        intros arr darr i'' X Hs. apply HS.
        eapply sols_ext; [|exact Hs]. eapply ext_trans; [apply ext_push_dep|exact X].
      - destruct Ho as (_ & Ev & Ed). cbn.
        set (i0 := push_op i Const None None (af_v o)).
        assert (recorded_tape (tape_of i0)) as R0
          by (apply recorded_push_op; cbn; auto; try congruence; lia).
        eexists _, (push_dep i0 (length (i_vals i))), (length (i_vals i)).
        split; [reflexivity|].
        split; [apply changes_upd; auto|].
        split; [eapply ext_trans; [apply ext_push_op|apply ext_push_dep]|].
        split; [apply recorded_push_dep; auto; cbn; rewrite app_length; cbn; lia|].
        split; [reflexivity|]. split; [reflexivity|].
        intros arr darr i'' X Hs.
        assert (sols i0 arr darr) as (_ & _ & HO).
        { eapply sols_ext; [|exact Hs]. eapply ext_trans; [apply ext_push_dep|exact X]. }
        destruct (HO (mkOp Const (length (i_vals i)) None None)) as (_ & T & K).
        { cbn. apply in_or_app; right; left; auto. }
        cbn in T, K. split.
        + rewrite (K eq_refl (af_v o)); [congruence|].
          rewrite nth_error_app2, Nat.sub_diag; auto.
        + intros HP. rewrite T, Ed; auto. }
    rewrite E.
    destruct (IH ys' w1 i1) as (w2 & i2 & ds & E2 & Ch2 & X2 & R2 & Hd2 & HI2 & HL2 & HS2).
    { eapply RVs_mono; [apply RVr_mono| |exact HR']. split; auto. }
    { apply Ch. } { auto. }
    rewrite E2. exists w2, i2, (d :: ds). split; [reflexivity|].
    split; [eapply changes_trans; eauto|]. split; [eapply ext_trans; eauto|].
    split; [auto|]. split; [rewrite Hd2, Hd, <- app_assoc; auto|]. split; [congruence|].
    split; [cbn; auto|].
    intros _ arr darr i'' X' Hs [|j] d' Hj; cbn in Hj.
    + injection Hj as <-. exists y. split; [auto|]. apply (HS arr darr i''); auto.
      eapply ext_trans; eauto.
    + apply (HS2 eq_refl arr darr i''); auto.
Qed.

End Record.

(** ** The whole recording *)
Section Main.
Context {F : Type} (Fo : Fops F).

Lemma sols_of_sweeps (i : inner F) x' dx arr darr :
  wf_tape (tape_of i) -> values_at Fo (tape_of i) x' arr ->
  tangents_at Fo (mkTape (i_indeps i) (i_deps i) (i_ops i) arr) dx darr ->
  sols Fo x' dx i arr darr.
Proof.
  intros W [V1 V2 V3 V4] [T1 T2 T3 T4]. cbn in *.
  split; [auto|]. split; [auto|]. intros o Ho. split; [auto|]. split; [auto|].
  intros HC a Ha. rewrite V4; auto.
  - apply nth_error_Some; congruence.
  - intros Hi. apply (wf_indep_def _ W _ Hi). apply in_def_ids. exists o; repeat split; auto.
    congruence.
  - intros o' Ho' Ev. destruct (opcode_eqb (opcode o') Nop) eqn:E.
    + apply opcode_eqb_eq in E; auto.
    + left. rewrite <- (sorted_inj _ o o' (wf_sorted _ W)); auto; try congruence.
      intros E2; apply opcode_eqb_eq in E2; congruence.
Qed.

Lemma wf_tape_vals (t : tape F) (arr : list F) :
  length arr = length (t_vals t) -> wf_tape t ->
  wf_tape (mkTape (t_indeps t) (t_deps t) (t_ops t) arr).
Proof. intros L [A B C D E G]. constructor; cbn; rewrite ?L; auto. Qed.

(** What [fn_tape] does, step by step. *)
Lemma fn_tape_inv f x w t w' :
  fn_tape Fo f x w = Ok (t, w') ->
  let c := w_next w in
  exists w1 w2 w3 outs i,
    changes c (mkInner [] [] [] []) (i_in x) (mkWorld (c + 1) (fun k => if k =? c then
       Some (mkInner [] [] [] []) else w_ctx w k)) w1 /\
    eval Fo f (mk_inputs Fo c 0 x) w1 = Ok (outs, w2) /\
    set_dep_slice Some c outs w2 = Ok (tt, w3) /\
    w_ctx w3 c = Some i /\ t = tape_of i /\
    w_next w' = w_next w3 /\ w_ctx w' c = None /\ (forall k, k <> c -> w_ctx w' k = w_ctx w3 k).
Proof.
  cbn. unfold fn_tape, mbind, ctx_new. cbn.
  set (c := w_next w). set (w0 := mkWorld _ _).
  destruct (set_indeps_spec Fo c x w0 (mkInner [] [] [] [])) as (w1 & E1 & Ch1).
  { cbn. rewrite Nat.eqb_refl; auto. }
  rewrite E1. cbn in Ch1. cbn [i_vals length].
  destruct (eval Fo f (mk_inputs Fo c 0 x) w1) as [[outs w2]|] eqn:E2; [|discriminate].
  destruct (set_dep_slice Some c outs w2) as [[[] w3]|] eqn:E3; [|discriminate].
  unfold ctx_tape, with_ctx. destruct (w_ctx w3 c) as [i|] eqn:E4; [|discriminate].
  cbn. intros [= <- <-]. exists w1, w2, w3, outs, i.
  split; [exact Ch1|]. repeat split; auto; cbn; rewrite ?Nat.eqb_refl; auto.
  intros k Hk. apply Nat.eqb_neq in Hk. rewrite Hk; auto.
Qed.

Definition k_eval (f : func F) (x dx : list F) : res (list ((F * F) * bool) * Prop) :=
  feval Fo (k_fop Fo) (k_cst Fo) (fun r => fst (fst r)) f
        (map (fun xd => (xd, false)) (combine x dx)) True.

Lemma record_sim f x w0 w1 x' dx :
  straight_f f -> length x' = length x -> length dx = length x ->
  w_ctx w1 w0 = Some (i_in x) ->
  match eval Fo f (mk_inputs Fo w0 0 x) w1 with
  | Ok (outs, w2) => exists ys P i,
      k_eval f x' dx = Ok (ys, P) /\ w_ctx w2 w0 = Some i /\ recorded_tape (tape_of i) /\
      ext (i_in x) i /\
      RVs (RVr Fo x' dx w0) (i, P) outs ys
  | Panic p => k_eval f x' dx = Panic p
  end.
Proof.
  intros HS L1 L2 Hc.
  assert (H := sim_feval Fo (from_op Fo Some) (af_const Fo) af_v (k_fop Fo) (k_cst Fo)
    (fun r => fst (fst r)) true (leW (F := F)) (RSr w0) (RVr Fo x' dx w0)
    leW_refl leW_trans (RVr_mono Fo x' dx w0) (sim_rec_fop Fo x' dx w0)
    (RVr_cst Fo x' dx w0) f (or_intror HS)
    (i_in x, True) _ _ (inputs_rel Fo x' dx w0 x True L1 L2) w1 True).
  unfold eval, k_eval.
  destruct (feval Fo (from_op Fo Some) _ _ f _ w1) as [[outs w2]|p].
  - destruct H as (ys & P & [i P'] & E & [X _] & (A & B & ->) & HR).
    { split; auto. split; auto. apply recorded_i_in. }
    exists ys, P', i. auto.
  - apply H; auto. split; auto. split; auto. apply recorded_i_in.
Qed.

Definition k_vals (ys : list ((F * F) * bool)) : list F := map (fun y => fst (fst y)) ys.
Definition k_tans (ys : list ((F * F) * bool)) : list F := map (fun y => snd (fst y)) ys.

Lemma gather_from_nth ids (arr : list F) (ys : list F) :
  length ys = length ids ->
  (forall j d, nth_error ids j = Some d -> exists y, nth_error ys j = Some y /\
     nth_error arr d = Some y) -> gather ids arr = Ok ys.
Proof.
  intros L H. unfold gather. apply mapM_ok_iff. split; auto.
  intros j d Hd. destruct (H j d Hd) as (y & A & B). exists y. split; auto.
  apply get_ok; auto.
Qed.

(** Evaluating a function marks no variable as independent or dependent. *)
Definition same_io (a b : world F) : Prop :=
  (forall k, option_map i_deps (w_ctx a k) = option_map i_deps (w_ctx b k)) /\
  (forall k, option_map i_indeps (w_ctx a k) = option_map i_indeps (w_ctx b k)).

Lemma operand_io (i : inner F) (x : AF F) k i' :
  operand Some i x k i' -> i_deps i' = i_deps i /\ i_indeps i' = i_indeps i.
Proof.
  unfold operand. destruct (af_ctx x) as [[? ?]|].
  - intros [_ ->]; auto.
  - intros (? & _ & _ & ->); auto.
Qed.

Lemma from_op_io oc (x : AF F) y w r w' :
  from_op Fo Some oc x y w = Ok (r, w') -> same_io w w'.
Proof.
  intros E. apply from_op_spec in E as (_ & _ & D).
  destruct D as [-> | c i i1 i2 v1 v2 fv Ep Ec O1 O2 Et Er (_ & C2 & C3 & C4)];
    [split; auto|].
  apply operand_io in O1 as [F1 G1].
  assert (i_deps i2 = i_deps i1 /\ i_indeps i2 = i_indeps i1) as [F2 G2].
  { destruct y as [y|], v2 as [k2|]; cbn in O2; try contradiction; [|subst; auto].
    eapply operand_io; eauto. }
  split; intros k; (destruct (Nat.eq_dec k c) as [->|Hk];
        [rewrite C2, C3; cbn; congruence | rewrite C4; auto]).
Qed.

Lemma eval_keeps_io f (xs outs : list (AF F)) w w' :
  eval Fo f xs w = Ok (outs, w') -> same_io w w'.
Proof.
  intros E.
  assert (H : simM true same_io (fun w s1 s2 => s1 = s2 /\ s1 = w)
                (RVs (fun (_ : world F) (a b : AF F) => a = b)) w
             (feval Fo (from_op Fo Some) (af_const Fo) af_v f xs)
             (feval Fo (from_op Fo Some) (af_const Fo) af_v f xs)).
  { apply sim_feval.
    - split; auto.
    - intros a b d [A1 A2] [B1 B2]; split; intros k; rewrite ?A1, ?A2; auto.
    - auto.
    - intros w0 oc a1 y1 a2 y2 Ha <- Hy s1 s2 [<- ->].
      assert (y1 = y2) as <- by (destruct y1, y2; cbn in Hy; try contradiction; congruence).
      destruct (from_op Fo Some oc a1 y1 w0) as [[r w'']|] eqn:E0; auto.
      exists r, w'', w''. split; [auto|]. split; [|auto]. eapply from_op_io; eauto.
    - auto.
    - left. intros ? ? ? ->; auto.
    - clear. induction xs; constructor; auto. }
  specialize (H w w (conj eq_refl eq_refl)). unfold eval in E. rewrite E in H.
  destruct H as (b & s2 & wf & _ & A & [_ <-] & _). auto.
Qed.

Theorem record_main f x w t w' :
  straight_f f -> fn_tape Fo f x w = Ok (t, w') ->
  recorded_tape t /\ t_indeps t = seq 0 (length x) /\
  firstn (length x) (t_vals t) = x /\
  forall x' dx, length x' = length x -> length dx = length x ->
  exists ys P t',
    k_eval f x' dx = Ok (ys, P) /\ length (t_deps t) = length ys /\
    tape_zero_order Fo t x' = Ok t' /\ tape_y t' = Ok (k_vals ys) /\
    (P -> tape_forward Fo t' dx = Ok (k_tans ys)).
Proof.
  intros HS HT. apply fn_tape_inv in HT.
  destruct HT as (w1 & w2 & w3 & outs & i & Ch & E1 & E2 & E3 & -> & _).
  assert (Hin : w_ctx w1 (w_next w) = Some (i_in x)) by apply Ch.
  assert (forall x' dx, length x' = length x -> length dx = length x ->
    recorded_tape (tape_of i) /\ i_indeps i = seq 0 (length x) /\
    firstn (length x) (i_vals i) = x /\
    exists ys P t',
    k_eval f x' dx = Ok (ys, P) /\ length (t_deps (tape_of i)) = length ys /\
    tape_zero_order Fo (tape_of i) x' = Ok t' /\ tape_y t' = Ok (k_vals ys) /\
    (P -> tape_forward Fo t' dx = Ok (k_tans ys))) as G.
  2:{ destruct (G x x eq_refl eq_refl) as (A & B & C & _).
      split; [auto|]. split; [auto|]. split; [auto|].
      intros x' dx L1 L2. apply (G x' dx L1 L2). }
  intros x' dx L1 L2.
  pose proof (record_sim f x (w_next w) w1 x' dx HS L1 L2 Hin) as H.
  rewrite E1 in H. destruct H as (ys & P & i2 & Ek & Hc2 & R2 & X2 & HR).
  destruct (set_dep_slice_spec Fo x' dx (w_next w) P outs ys w2 i2 HR Hc2 R2)
    as (w3' & i3 & ds & E2' & Ch3 & X3 & R3 & Hd & HI & HL & HSol).
  rewrite E2 in E2'. injection E2' as <-.
  assert (i3 = i) by (destruct Ch3 as (_ & _ & A & _); congruence). subst i3.
  assert (i_deps i2 = [] /\ i_indeps i2 = seq 0 (length x)) as [Hd2 HI2].
  { destruct (eval_keeps_io _ _ _ _ _ E1) as [A1 A2].
    specialize (A1 (w_next w)). specialize (A2 (w_next w)).
    rewrite Hin, Hc2 in A1, A2. cbn in A1, A2. split; congruence. }
  rewrite Hd2 in Hd; cbn in Hd. rewrite HI2 in HI.
  split; [auto|]. split; [auto|]. split.
  { assert (ext (i_in x) i) as (_ & _ & _ & l & ->) by (eapply ext_trans; eauto).
    cbn. rewrite firstn_app, Nat.sub_diag, firstn_all, firstn_O, app_nil_r. auto. }
  assert (length ys = length outs) as Lys by (symmetry; eapply Forall2_length_eq; eauto).
  pose proof (rt_wf _ R3) as W3.
  destruct (zero_sweep_values Fo (tape_of i) x') as (t' & Ez & A1 & A2 & A3 & HV); auto.
  { unfold num_indeps; cbn. rewrite HI, seq_length. auto. }
  assert (Lv : length (t_vals t') = length (i_vals i)) by apply (va_len _ _ _ _ HV).
  assert (t' = mkTape (i_indeps i) (i_deps i) (i_ops i) (t_vals t')) as Et'.
  { destruct t'; cbn in *; congruence. }
  assert (wf_tape t') as W'.
  { rewrite Et'. apply (wf_tape_vals (tape_of i)); auto. }
  destruct (forward_tangents Fo t' dx W') as (darr & dy & HTan & Ef & Eg).
  { unfold num_indeps. rewrite A1. cbn. rewrite HI, seq_length. auto. }
  assert (sols Fo x' dx i (t_vals t') darr) as Hsol.
  { apply sols_of_sweeps; auto. rewrite <- Et'. auto. }
  exists ys, P, t'. split; [auto|]. split; [cbn; rewrite Hd; congruence|].
  split; [auto|]. split.
  - unfold tape_y. rewrite A2. cbn. apply gather_from_nth.
    + unfold k_vals. rewrite map_length. congruence.
    + intros j d Hj. rewrite Hd in Hj.
      destruct (HSol eq_refl (t_vals t') darr i (ext_refl i) Hsol j d Hj) as (y & B1 & B2 & B3).
      exists (fst (fst y)). split; auto. unfold k_vals. rewrite nth_error_map, B1. auto.
  - intros HP. rewrite Ef. rewrite <- Eg. rewrite A2. cbn. apply gather_from_nth.
    + unfold k_tans. rewrite map_length. congruence.
    + intros j d Hj. rewrite Hd in Hj.
      destruct (HSol eq_refl (t_vals t') darr i (ext_refl i) Hsol j d Hj) as (y & B1 & B2 & B3).
      exists (snd (fst y)). split; auto. unfold k_tans. rewrite nth_error_map, B1. auto.
Qed.

End Main.
