(** Proofs about Mixed.v: what a tape recorded with another number type computes. *)
From Coq Require Import List Arith ZArith Bool Lia Sorted.
From Verif Require Import Base Float Operation Tape AContext Methods Function Spec Param
  TapeFacts AContextFacts Instances FunctionFacts RecordFacts Mixed.
Import ListNotations.

Section Record.
Context {Sc F : Type} (So : Fops Sc) (Fo : Fops F) (tof : Sc -> option F).
(** [ex]: every number converts, so that panics can be compared as well *)
Context (ex : bool) (Htot : ex = true -> forall s, tof s <> None).
Context (x' dx : list F) (c : nat).

Notation mixed := (@mixed Sc F).
Notation dual := (as_dual Fo tof).
Notation sol := (sols Fo x' dx).

Definition RSm (w : inner F) (s1 : world F) (s2 : unit) : Prop :=
  w_ctx s1 c = Some w /\ recorded_tape (tape_of w).

Definition RVm (w : inner F) (x : AF Sc) (y : mixed) : Prop :=
  match af_ctx x with
  | None => y = FromConstants (af_v x)
  | Some (c', k) =>
      c' = c /\ (exists a, nth_error (i_vals w) k = Some a /\ tof (af_v x) = Some a) /\
      exists v d, y = FromInputs v d /\
        forall arr darr, sol w arr darr -> nth_error arr k = Some v /\ nth_error darr k = Some d
  end.

Lemma RVm_mono a b x y : ext a b -> RVm a x y -> RVm b x y.
Proof.
  intros E. unfold RVm. destruct (af_ctx x) as [[c' k]|]; [|auto].
  intros (A & (u & U1 & U2) & v & d & -> & D). split; [auto|]. split.
  - exists u; split; auto. eapply ext_val; eauto.
  - exists v, d. split; [auto|]. intros arr darr HS. apply D. eapply sols_ext; eauto.
Qed.

Lemma operand_mixed w x y k i1 :
  RVm w x y -> operand tof w x k i1 -> recorded_tape (tape_of w) ->
  ext w i1 /\ recorded_tape (tape_of i1) /\ k < length (i_vals i1) /\
  forall i2 arr darr, ext i1 i2 -> sol i2 arr darr ->
    nth_error arr k = Some (fst (dual y)) /\ nth_error darr k = Some (snd (dual y)).
Proof.
  unfold RVm, operand. intros HR HO HRec. destruct (af_ctx x) as [[c' k']|].
  - destruct HO as [-> ->]. destruct HR as (A & (a & U & _) & v & d & -> & D).
    split; [apply ext_refl|]. split; [auto|].
    split; [apply nth_error_Some; congruence|].
    intros i2 arr darr E HS. apply D. eapply sols_ext; eauto.
  - destruct HO as (fv & Hfv & -> & ->). subst y. cbn [as_dual fst snd].
    split; [apply ext_push_op|].
    split; [apply recorded_push_op; cbn; auto; try congruence; lia|].
    split; [cbn; rewrite app_length; cbn; lia|].
    intros i2 arr darr E HS. apply (sols_ext _ _ _ _ _ _ _ E) in HS.
    destruct HS as (_ & _ & HS).
    destruct (HS (mkOp Const (length (i_vals w)) None None)) as (_ & T & K).
    { cbn. apply in_or_app; right; left; auto. }
    cbn in T, K. split; [|exact T].
    unfold conv. rewrite Hfv. apply (K eq_refl).
    rewrite nth_error_app2, Nat.sub_diag; auto.
Qed.

Definition is_const (y : mixed) : bool :=
  match y with FromConstants _ => true | FromInputs _ _ => false end.

Lemma RVm_const w x y : RVm w x y -> is_const y = match af_ctx x with None => true | _ => false end.
Proof.
  unfold RVm. destruct (af_ctx x) as [[? ?]|].
  - intros (_ & _ & v & d & -> & _); auto.
  - intros ->; auto.
Qed.

Lemma mixed_op_inputs oc x y :
  is_const x && (match y with Some z => is_const z | None => true end) = false ->
  mixed_op So Fo tof oc x y =
  mbind (d_fop Fo oc (dual x) (option_map dual y))
        (fun r => mret (FromInputs (fst r) (snd r))).
Proof. destruct x, y as [[|]|]; cbn; auto; discriminate. Qed.

Lemma pick_mixed w x1 y1 x2 y2 :
  RVm w x1 x2 -> orel (RVm w) y1 y2 ->
  (pick_cid x1 y1 = Ok None /\ x2 = FromConstants (af_v x1) /\
     y2 = option_map (fun y => FromConstants (af_v y)) y1) \/
  (pick_cid x1 y1 = Ok (Some c) /\
     is_const x2 && (match y2 with Some z => is_const z | None => true end) = false).
Proof.
  intros Hx Hy. pose proof (RVm_const _ _ _ Hx) as Cx.
  unfold RVm, orel, pick_cid in *.
  destruct (af_ctx x1) as [[c1 k1]|].
  - right. rewrite Cx. destruct Hx as (-> & _). cbn. split; [|auto].
    destruct y1 as [y1|], y2 as [y2|]; try contradiction; auto.
    destruct (af_ctx y1) as [[c2 k2]|]; auto.
    destruct Hy as (-> & _). rewrite Nat.eqb_refl. auto.
  - subst x2. destruct y1 as [y1|], y2 as [y2|]; try contradiction; cbn; auto.
    destruct (af_ctx y1) as [[c2 k2]|].
    + right. destruct Hy as (-> & _ & v & d & -> & _). auto.
    + left. subst. auto.
Qed.

Lemma sim_mixed_op w oc x1 y1 x2 y2 :
  arity_ok oc y1 -> RVm w x1 x2 -> orel (RVm w) y1 y2 ->
  simM ex ext RSm RVm w (from_op So tof oc x1 y1) (mixed_op So Fo tof oc x2 y2).
Proof.
  intros Ha Hx Hy s1 [] (Hc & Hrec).
  assert (arity_ok oc y2) as Ha2
    by (destruct y1, y2; cbn in *; auto; contradiction).
  pose proof (pick_mixed _ _ _ _ _ Hx Hy) as Hp.
  destruct (from_op So tof oc x1 y1 s1) as [[r w']|p] eqn:Er.
  2:{ intros He. specialize (Htot He). exfalso.
      destruct (from_op_total So tof oc x1 y1 s1 Htot Ha) as [(q & Hq & _)|(r & w' & E)].
      - destruct Hp as [(E & _)|(E & _)]; congruence.
      - congruence. }
  apply from_op_spec in Er as (Hz & Hf & D).
  destruct D as [-> Hd Hn | c0 i i1 i2 v1 v2 fv Ep Ec O1 O2 Et Er Ch].
  - destruct Hp as [(Ep & -> & ->)|(Ep & _)].
    2:{ exfalso. destruct Hn as [Hn|(c0 & Hn & Hn')]; [congruence|].
        assert (c0 = c) by congruence. congruence. }
    exists (FromConstants (af_v r)), tt, w.
    split; [|split; [apply ext_refl|split; [split; auto|unfold RVm; rewrite Hd; auto]]].
    destruct y1 as [y1|]; cbn in *; unfold v_fop, mbind, mlift; rewrite Hz; auto.
  - destruct Hp as [(Ep' & _)|(Ep' & Eb)]; [congruence|].
    assert (c0 = c) by congruence. subst c0.
    assert (i = w) by congruence. subst i.
    rewrite (mixed_op_inputs _ _ _ Eb).
    assert (exists r, d_fop Fo oc (dual x2) (option_map dual y2) tt = Ok (r, tt) /\
      zero_order_value Fo oc (fst (dual x2)) (option_map fst (option_map dual y2)) = Ok (fst r) /\
      first_order_value Fo oc (fst (dual x2)) (option_map fst (option_map dual y2)) (snd (dual x2))
        (option_map snd (option_map dual y2)) = Ok (snd r)) as ([v d] & Ek & Ez & Ef).
    { unfold d_fop, mbind, mlift.
      destruct (zero_order_value_total Fo oc (fst (dual x2)) (option_map fst (option_map dual y2)))
        as [v Ev].
      { destruct y2; cbn in *; [right; split; auto; discriminate|auto]. }
      destruct (first_order_value_total Fo oc (fst (dual x2))
         (option_map fst (option_map dual y2))
         (snd (dual x2)) (option_map snd (option_map dual y2))) as [d Ed].
      { destruct y2; cbn in *; [right; repeat split; auto; discriminate|auto]. }
      rewrite Ev, Ed. exists (v, d). auto. }
    cbn [fst snd] in Ez, Ef. unfold mbind. rewrite Ek. cbn [mret fst snd].
    destruct (operand_mixed _ _ _ _ _ Hx O1 Hrec) as (X1 & R1 & L1 & S1).
    assert (ext i1 i2 /\ recorded_tape (tape_of i2) /\
      match v2, y2 with
      | Some k, Some y => k < length (i_vals i2) /\
          forall i3 arr darr, ext i2 i3 -> sol i3 arr darr ->
            nth_error arr k = Some (fst (dual y)) /\ nth_error darr k = Some (snd (dual y))
      | None, None => True
      | _, _ => False
      end) as (X2 & R2 & H2).
    { destruct y1 as [y1|], v2 as [k|], y2 as [y2|]; cbn in O2, Hy; try contradiction.
      - assert (RVm i1 y1 y2) as Hy' by (eapply RVm_mono; eauto).
        destruct (operand_mixed _ _ _ _ _ Hy' O2 R1) as (X2 & R2 & L2 & S2).
        split; [auto|]. split; auto.
      - subst i2. split; [apply ext_refl|]. auto. }
    set (i3 := push_op i2 oc (Some v1) v2 fv) in *.
    assert (ext i2 i3) as X3 by apply ext_push_op.
    assert (v1 < length (i_vals i2)) as L1' by (pose proof (ext_len _ _ X2); lia).
    assert (recorded_tape (tape_of i3)) as R3.
    { apply recorded_push_op; auto.
      - unfold wf_op; cbn. destruct v2 as [k|], y2 as [y2|]; try contradiction.
        + destruct H2 as [H2 _]. cbn in Ha2.
          destruct oc; try discriminate; cbn; repeat split; eauto.
        + cbn in Ha2. destruct oc; try discriminate; cbn; repeat split; eauto.
      - destruct y2; cbn in Ha2; destruct oc; discriminate.
      - intros ->. destruct y2; cbn in Ha2; discriminate. }
    exists (FromInputs v d), tt, i3.
    assert (ext w i3) as X by (eapply ext_trans; [eauto|]; eapply ext_trans; eauto).
    split; [reflexivity|]. split; [auto|].
    split; [split; [apply Ch|]; auto|].
    unfold RVm. rewrite Er. split; [auto|]. split.
    { exists fv. split; auto. cbn. rewrite nth_error_app2, Nat.sub_diag; auto. }
    exists v, d. split; [auto|].
    intros arr darr HS.
    destruct (S1 i3 arr darr) as [V1 D1]; auto; [eapply ext_trans; eauto|].
    pose proof HS as (_ & _ & HO).
    destruct (HO (mkOp oc (length (i_vals i2)) (Some v1) v2)) as (Vq & Tq & _).
    { cbn. apply in_or_app; right; left; auto. }
    assert (oc <> Nop /\ oc <> Const) as [NN NC]
      by (destruct y2; cbn in Ha2; destruct oc; try discriminate; split; discriminate).
    assert (exists a r, nth_error arr v1 = Some a /\ nth_error arr (length (i_vals i2)) = Some r /\
      match v2 with
      | None => zero_order_value Fo oc a None = Ok r
      | Some j => exists b, nth_error arr j = Some b /\ zero_order_value Fo oc a (Some b) = Ok r
      end) as (a & ra & Va & Vr & Vz).
    { unfold value_eq in Vq; cbn in Vq.
      destruct oc; try congruence;
        destruct Vq as (i & a & r' & [= <-] & Q1 & Q2 & Q3); exists a, r'; auto. }
    apply tangent_eq_inv in Tq; auto. cbn in Tq.
    destruct Tq as (i & a' & da & dr & [= <-] & Ta & Td & Tr & Tz).
    assert (a = fst (dual x2)) by congruence. subst a.
    assert (a' = fst (dual x2)) by congruence. subst a'.
    assert (da = snd (dual x2)) by congruence. subst da.
    destruct v2 as [k|], y2 as [y2|]; try contradiction.
    + destruct H2 as [_ H2]. destruct (H2 i3 arr darr X3 HS) as [V2 D2].
      destruct Vz as (b & Vb & Vz). assert (b = fst (dual y2)) by congruence. subst b.
      destruct Tz as (b & e & Tb & Te & Tz). assert (b = fst (dual y2)) by congruence. subst b.
      assert (e = snd (dual y2)) by congruence. subst e.
      cbn [option_map] in Ez, Ef. split; congruence.
    + cbn [option_map] in Ez, Ef. split; congruence.
Qed.

(** ** Inputs *)
Definition mk_inputs' (s : nat) (x : list Sc) : list (AF Sc) :=
  map (fun p => mkAF (snd p) (f_zero So) (Some (c, fst p))) (combine (seq s (length x)) x).

Lemma set_indeps_mixed x : forall w i,
  w_ctx w c = Some i ->
  match set_indeps tof c (map (af_const So) x) w with
  | Ok (ins, w') => exists vs, Forall2 (fun s v => tof s = Some v) x vs /\
      ins = mk_inputs' (length (i_vals i)) x /\
      changes c i (mkInner (i_indeps i ++ seq (length (i_vals i)) (length x)) (i_deps i) (i_ops i)
                         (i_vals i ++ vs)) w w'
  | Panic p => exists s, In s x /\ tof s = None
  end.
Proof.
  induction x as [|a x IH]; intros w i Hc; cbn [map set_indeps].
  - cbn. exists []. split; [constructor|]. split; [auto|]. repeat split; auto. rewrite Hc. f_equal.
    destruct i; cbn. rewrite !app_nil_r. auto.
  - unfold mbind. unfold set_indep at 1, with_ctx. rewrite Hc. cbn.
    destruct (tof a) as [v|] eqn:Ev; cbn; [|exists a; auto].
    set (i1 := mkInner (i_indeps i ++ [length (i_vals i)]) (i_deps i) (i_ops i) (i_vals i ++ [v])).
    specialize (IH (upd_ctx w c (Some i1)) i1).
    destruct (set_indeps tof c (map (af_const So) x) (upd_ctx w c (Some i1))) as [[ins w']|p].
    + destruct IH as (vs & HF & -> & Ch).
      { cbn. rewrite Nat.eqb_refl. auto. }
      cbn. exists (v :: vs). split; [constructor; auto|]. split.
      * unfold mk_inputs'; cbn. rewrite app_length; cbn. rewrite Nat.add_1_r. auto.
      * eapply changes_trans; [apply (changes_upd c i i1); eauto|].
        replace (mkInner (i_indeps i ++ length (i_vals i) :: seq (S (length (i_vals i))) (length x))
          (i_deps i) (i_ops i) (i_vals i ++ v :: vs)) with
          (mkInner (i_indeps i1 ++ seq (length (i_vals i1)) (length x)) (i_deps i1) (i_ops i1)
                 (i_vals i1 ++ vs)); [exact Ch|].
        cbn. rewrite <- !app_assoc. cbn. rewrite app_length; cbn. rewrite Nat.add_1_r. auto.
    + destruct IH as (s & A & B); [cbn; rewrite Nat.eqb_refl; auto|]. exists s; auto.
Qed.

Lemma inputs_mixed x vs :
  Forall2 (fun s v => tof s = Some v) x vs ->
  length x' = length x -> length dx = length x ->
  Forall2 (RVm (i_in vs)) (mk_inputs' 0 x)
    (map (fun xd => FromInputs (fst xd) (snd xd)) (combine x' dx)).
Proof.
  intros HF L1 L2. pose proof (Forall2_length_eq _ _ _ HF) as LF.
  assert (forall s y us xx dd, Forall2 (fun s v => tof s = Some v) y us ->
    length xx = length y -> length dd = length y ->
    (forall k, k < length us -> nth_error us k = nth_error vs (s + k)) ->
    (forall k, nth_error xx k = nth_error x' (s + k)) ->
    (forall k, nth_error dd k = nth_error dx (s + k)) ->
    s + length y = length x ->
    Forall2 (RVm (i_in vs)) (mk_inputs' s y)
      (map (fun xd => FromInputs (fst xd) (snd xd)) (combine xx dd))) as H.
  { intros s y; revert s; induction y as [|a y IH]; intros s us xx dd HU A B U C D E.
    - destruct xx; [constructor|discriminate].
    - destruct xx as [|b xx]; [discriminate|]. destruct dd as [|e dd]; [discriminate|].
      inversion HU as [|? u ? us' Hu HU']; subst.
      cbn in *. constructor.
      + unfold RVm; cbn. split; [auto|].
        split.
        { exists u. split; auto. specialize (U 0 ltac:(lia)). cbn in U.
          rewrite Nat.add_0_r in U. congruence. }
        exists b, e. split; [auto|].
        intros arr darr (H1 & H2 & _). cbn in H1, H2.
        assert (nth_error (seq 0 (length vs)) s = Some s) as Hs.
        { rewrite (nth_error_nth' _ 0) by (rewrite seq_length; lia).
          rewrite seq_nth by lia. auto. }
        destruct (H1 s s Hs) as (z & U1 & U2). destruct (H2 s s Hs) as (z' & U1' & U2').
        specialize (C 0). specialize (D 0). cbn in C, D. rewrite Nat.add_0_r in C, D.
        split; congruence.
      + apply (IH (S s) us'); auto; try lia.
        * intros k Hk. specialize (U (S k) ltac:(cbn; lia)). cbn in U. rewrite U. f_equal. lia.
        * intros k. specialize (C (S k)). cbn in C. rewrite C. f_equal. lia.
        * intros k. specialize (D (S k)). cbn in D. rewrite D. f_equal. lia. }
  apply (H 0 x vs); auto.
Qed.

(** ** Outputs *)
Lemma set_dep_slice_mixed outs ys : forall w i,
  Forall2 (RVm i) outs ys -> w_ctx w c = Some i -> recorded_tape (tape_of i) ->
  match set_dep_slice tof c outs w with
  | Ok (_, w') => exists i' ds, changes c i i' w w' /\
    ext i i' /\ recorded_tape (tape_of i') /\ i_deps i' = i_deps i ++ ds /\
    i_indeps i' = i_indeps i /\ length ds = length outs /\
    (forall j d o, nth_error ds j = Some d -> nth_error outs j = Some o ->
       exists a, tof (af_v o) = Some a /\ nth_error (i_vals i') d = Some a) /\
    (forall arr darr i'', ext i' i'' -> sol i'' arr darr ->
       forall j d, nth_error ds j = Some d ->
       exists y, nth_error ys j = Some y /\ nth_error arr d = Some (fst (dual y)) /\
         nth_error darr d = Some (snd (dual y)))
  | Panic p => exists o, In o outs /\ tof (af_v o) = None
  end.
Proof.
  revert ys; induction outs as [|o outs IH]; intros ys w i HR Hc HRec; cbn [set_dep_slice].
  - cbn. exists i, []. inversion HR; subst.
    split; [repeat split; auto|]. split; [apply ext_refl|]. split; [auto|].
    split; [rewrite app_nil_r; auto|]. split; [auto|]. split; [auto|].
    split; [intros [|j]; discriminate|].
    intros arr darr i'' _ _ j d; destruct j; discriminate.
  - inversion HR as [|? y ? ys' Ho HR']; subst.
    unfold mbind.
    assert (match set_dep tof c o w with
      | Ok (_, w1) => exists i1 d, changes c i i1 w w1 /\ ext i i1 /\
        recorded_tape (tape_of i1) /\ i_deps i1 = i_deps i ++ [d] /\ i_indeps i1 = i_indeps i /\
        (exists a, tof (af_v o) = Some a /\ nth_error (i_vals i1) d = Some a) /\
        forall arr darr i'', ext i1 i'' -> sol i'' arr darr ->
          nth_error arr d = Some (fst (dual y)) /\ nth_error darr d = Some (snd (dual y))
      | Panic _ => tof (af_v o) = None
      end) as HD.
    { unfold set_dep, with_ctx. rewrite Hc. unfold RVm in Ho; cbn in Ho.
      destruct (af_ctx o) as [[c' k]|].
      - destruct Ho as (-> & (a & U1 & U2) & v & d & -> & HS). rewrite Nat.eqb_refl. cbn.
        assert (k < length (i_vals i)) as Hk by (apply nth_error_Some; congruence).
        exists (push_dep i k), k.
        split; [apply changes_upd; auto|]. split; [apply ext_push_dep|].
        split; [apply recorded_push_dep; auto|]. split; [reflexivity|]. split; [reflexivity|].
        split; [exists a; auto|].
        intros arr darr i'' X Hs. apply HS.
        eapply sols_ext; [|exact Hs]. eapply ext_trans; [apply ext_push_dep|exact X].
      - subst y. cbn. destruct (tof (af_v o)) as [a|] eqn:Ev; cbn; [|auto].
        set (i0 := push_op i Const None None a).
        assert (recorded_tape (tape_of i0)) as R0
          by (apply recorded_push_op; cbn; auto; try congruence; lia).
        exists (push_dep i0 (length (i_vals i))), (length (i_vals i)).
        split; [apply changes_upd; auto|].
        split; [eapply ext_trans; [apply ext_push_op|apply ext_push_dep]|].
        split; [apply recorded_push_dep; auto; cbn; rewrite app_length; cbn; lia|].
        split; [reflexivity|]. split; [reflexivity|].
        split.
        { exists a. split; auto. cbn. rewrite nth_error_app2, Nat.sub_diag; auto. }
        intros arr darr i'' X Hs.
        assert (sol i0 arr darr) as (_ & _ & HO).
        { eapply sols_ext; [|exact Hs]. eapply ext_trans; [apply ext_push_dep|exact X]. }
        destruct (HO (mkOp Const (length (i_vals i)) None None)) as (_ & T & K).
        { cbn. apply in_or_app; right; left; auto. }
        cbn in T, K. split; [|exact T].
        unfold conv. rewrite Ev. apply (K eq_refl a).
        rewrite nth_error_app2, Nat.sub_diag; auto. }
    destruct (set_dep tof c o w) as [[[] w1]|p]; [|exists o; cbn; auto].
    destruct HD as (i1 & d & Ch & X & R1 & Hd & HI & (a & A1 & A2) & HS).
    assert (w_ctx w1 c = Some i1) as Hc1 by apply Ch.
    specialize (IH ys' w1 i1).
    destruct (set_dep_slice tof c outs w1) as [[[] w2]|p].
    + destruct IH as (i2 & ds & Ch2 & X2 & R2 & Hd2 & HI2 & HL2 & HA2 & HS2); auto.
      { eapply Forall2_impl; [|exact HR']. intros u z. apply RVm_mono; auto. }
      exists i2, (d :: ds).
      split; [eapply changes_trans; eauto|]. split; [eapply ext_trans; eauto|].
      split; [auto|]. split; [rewrite Hd2, Hd, <- app_assoc; auto|]. split; [congruence|].
      split; [cbn; auto|]. split.
      * intros [|j] d' o' Hj Hj'; cbn in Hj, Hj'.
        -- injection Hj as <-. injection Hj' as <-. exists a. split; auto. eapply ext_val; eauto.
        -- eapply HA2; eauto.
      * intros arr darr i'' X' Hs [|j] d' Hj; cbn in Hj.
        -- injection Hj as <-. exists y. split; [auto|]. apply (HS arr darr i''); auto.
           eapply ext_trans; eauto.
        -- apply (HS2 arr darr i''); auto.
    + destruct IH as (o' & B1 & B2); auto.
      { eapply Forall2_impl; [|exact HR']. intros u z. apply RVm_mono; auto. }
      exists o'; cbn; auto.
Qed.

(** ** The body *)
Lemma body_mixed p x vs w1 :
  straight p -> Forall2 (fun s v => tof s = Some v) x vs ->
  length x' = length x -> length dx = length x ->
  w_ctx w1 c = Some (i_in vs) ->
  match run_af So tof p (mk_inputs' 0 x) w1 with
  | Ok (outs, w2) => exists ys i,
      run So (mixed_op So Fo tof) FromConstants (mixed_branch So) p
        (map (fun xd => FromInputs (fst xd) (snd xd)) (combine x' dx)) tt = Ok (ys, tt) /\
      w_ctx w2 c = Some i /\ recorded_tape (tape_of i) /\ ext (i_in vs) i /\
      Forall2 (RVm i) outs ys
  | Panic q => ex = true ->
      run So (mixed_op So Fo tof) FromConstants (mixed_branch So) p
        (map (fun xd => FromInputs (fst xd) (snd xd)) (combine x' dx)) tt = Panic q
  end.
Proof.
  intros HS HF L1 L2 Hc.
  assert (H := sim_run So (from_op So tof) (af_const So) af_v (mixed_op So Fo tof) FromConstants
    (mixed_branch So) ex ext RSm RVm
    ext_refl ext_trans RVm_mono sim_mixed_op (fun w v => eq_refl)
    p (or_intror HS) (i_in vs) _ _ (inputs_mixed x vs HF L1 L2) w1 tt).
  unfold run_af.
  destruct (run So (from_op So tof) _ _ p _ w1) as [[outs w2]|q].
  - destruct H as (ys & [] & i & E & X & (A & B) & HR).
    { split; auto. apply recorded_i_in. }
    exists ys, i. auto.
  - apply H; auto. split; auto. apply recorded_i_in.
Qed.
End Record.

(** Running a program marks no variable as independent or dependent. *)
Section Io.
Context {Sc F : Type} (So : Fops Sc) (tof : Sc -> option F).

Lemma operand_io' (i : inner F) (x : AF Sc) k i' :
  operand tof i x k i' -> i_deps i' = i_deps i /\ i_indeps i' = i_indeps i.
Proof.
  unfold operand. destruct (af_ctx x) as [[? ?]|].
  - intros [_ ->]; auto.
  - intros (? & _ & _ & ->); auto.
Qed.

Lemma from_op_io' oc (x : AF Sc) y w r w' :
  from_op So tof oc x y w = Ok (r, w') -> same_io w w'.
Proof.
  intros E. apply from_op_spec in E as (_ & _ & D).
  destruct D as [-> | c i i1 i2 v1 v2 fv Ep Ec O1 O2 Et Er (_ & C2 & C3 & C4)];
    [split; auto|].
  apply operand_io' in O1 as [F1 G1].
  assert (i_deps i2 = i_deps i1 /\ i_indeps i2 = i_indeps i1) as [F2 G2].
  { destruct y as [y|], v2 as [k2|]; cbn in O2; try contradiction; [|subst; auto].
    eapply operand_io'; eauto. }
  split; intros k; (destruct (Nat.eq_dec k c) as [->|Hk];
        [rewrite C2, C3; cbn; congruence | rewrite C4; auto]).
Qed.

Lemma run_keeps_io p (xs outs : list (AF Sc)) w w' :
  run_af So tof p xs w = Ok (outs, w') -> same_io w w'.
Proof.
  intros E.
  assert (H : simM true same_io (fun w s1 s2 => s1 = s2 /\ s1 = w)
                (RVs (fun (_ : world F) (a b : AF Sc) => a = b)) w
             (run_af So tof p xs) (run_af So tof p xs)).
  { apply sim_run.
    - split; auto.
    - intros a b d [A1 A2] [B1 B2]; split; intros k; rewrite ?A1, ?A2; auto.
    - auto.
    - intros w0 oc a1 y1 a2 y2 Ha <- Hy s1 s2 [<- ->].
      assert (y1 = y2) as <- by (destruct y1, y2; cbn in Hy; try contradiction; congruence).
      destruct (from_op So tof oc a1 y1 w0) as [[r w'']|] eqn:E0; auto.
      exists r, w'', w''. split; [auto|]. split; [|auto]. eapply from_op_io'; eauto.
    - auto.
    - left. intros ? ? ? ->; auto.
    - clear. induction xs; constructor; auto. }
  specialize (H w w (conj eq_refl eq_refl)). rewrite E in H.
  destruct H as (b & s2 & wf & _ & A & [_ <-] & _). auto.
Qed.
End Io.

(** ** The whole recording *)
Section Main.
Context {Sc F : Type} (So : Fops Sc) (Fo : Fops F) (tof : Sc -> option F).

Lemma run_af_resolve p env w :
  run_af So tof p env w = run_af So tof (resolve So p (map af_v env)) env w.
Proof.
  assert (H := feval_resolve So (from_op So tof) (af_const So) af_v).
  assert (Hv : forall oc (x : AF Sc) y w r w',
    arity_ok oc y -> from_op So tof oc x y w = Ok (r, w') ->
    zero_order_value So oc (af_v x) (option_map af_v y) = Ok (af_v r)).
  { intros oc x y w0 r w' _ E. apply from_op_spec in E. tauto. }
  specialize (H Hv (fun c => eq_refl) (Simple 0 0 p) env w). exact H.
Qed.

Lemma run_af_values p env w ys w' :
  run_af So tof p env w = Ok (ys, w') -> v_run So p (map af_v env) = Ok (map af_v ys).
Proof.
  assert (H := feval_values So (from_op So tof) (af_const So) af_v).
  assert (Hv : forall oc (x : AF Sc) y w r w',
    arity_ok oc y -> from_op So tof oc x y w = Ok (r, w') ->
    zero_order_value So oc (af_v x) (option_map af_v y) = Ok (af_v r)).
  { intros oc x y w0 r w0' _ E. apply from_op_spec in E. tauto. }
  specialize (H Hv (fun c => eq_refl) (Simple 0 0 p) env w ys w'). exact H.
Qed.

Lemma mk_inputs_values c s x : map af_v (mk_inputs' So c s x) = x.
Proof.
  unfold mk_inputs'. revert s; induction x as [|a x IH]; intros s; cbn; auto.
  f_equal. apply IH.
Qed.

Lemma conv_list x vs :
  Forall2 (fun s v => tof s = Some v) x vs -> vs = map (conv Fo tof) x.
Proof.
  induction 1 as [|s v x vs Hs HF IH]; cbn; auto. unfold conv at 1. rewrite Hs. congruence.
Qed.

Lemma record_prog_inv p x w t w' :
  record_prog So tof p x w = Ok (t, w') ->
  exists vs w1 w2 w3 outs i, let c := w_next w in
    Forall2 (fun s v => tof s = Some v) x vs /\ w_ctx w1 c = Some (i_in vs) /\
    run_af So tof p (mk_inputs' So c 0 x) w1 = Ok (outs, w2) /\
    set_dep_slice tof c outs w2 = Ok (tt, w3) /\ w_ctx w3 c = Some i /\ t = tape_of i.
Proof.
  unfold record_prog, mbind, ctx_new. cbn.
  set (c := w_next w). set (w0 := mkWorld _ _).
  pose proof (set_indeps_mixed So tof c x w0 (mkInner [] [] [] [])) as H1.
  destruct (set_indeps tof c (map (af_const So) x) w0) as [[ins w1]|]; [|discriminate].
  destruct H1 as (vs & HF & -> & Ch1).
  { cbn. rewrite Nat.eqb_refl; auto. }
  cbn in Ch1. cbn [i_vals length].
  destruct (run_af So tof p _ w1) as [[outs w2]|] eqn:E2; [|discriminate].
  destruct (set_dep_slice tof c outs w2) as [[[] w3]|] eqn:E3; [|discriminate].
  unfold ctx_tape, with_ctx. destruct (w_ctx w3 c) as [i|] eqn:E4; [|discriminate].
  cbn. intros [= <- <-]. exists vs, w1, w2, w3, outs, i.
  split; [auto|]. split; [|auto].
  destruct Ch1 as (_ & _ & A & _). rewrite A. unfold i_in.
  rewrite <- (Forall2_length_eq _ _ _ HF). auto.
Qed.

Theorem record_prog_main p x w t w' :
  record_prog So tof p x w = Ok (t, w') ->
  exists y, v_run So p x = Ok y /\
    recorded_tape t /\ t_indeps t = seq 0 (length x) /\
    tape_x t = Ok (map (conv Fo tof) x) /\ tape_y t = Ok (map (conv Fo tof) y) /\
    (forall s, In s (x ++ y) -> tof s <> None) /\
    forall x' dx, length x' = length x -> length dx = length x ->
    exists zs t',
      mixed_run So Fo tof (resolve So p x) x' dx = Ok zs /\ length zs = length y /\
      tape_zero_order Fo t x' = Ok t' /\ tape_y t' = Ok (map fst zs) /\
      tape_forward Fo t' dx = Ok (map snd zs).
Proof.
  intros HT. apply record_prog_inv in HT.
  destruct HT as (vs & w1 & w2 & w3 & outs & i & HF & Hin & E1 & E2 & E3 & ->).
  pose proof (run_af_values _ _ _ _ _ E1) as Ey. rewrite mk_inputs_values in Ey.
  pose proof E1 as E1'. rewrite run_af_resolve, mk_inputs_values in E1.
  assert (HS : straight (resolve So p x)) by apply resolve_straight.
  pose proof (Forall2_length_eq _ _ _ HF) as LF.
  exists (map af_v outs). split; [auto|].
  assert (forall x' dx, length x' = length x -> length dx = length x ->
    recorded_tape (tape_of i) /\ i_indeps i = seq 0 (length x) /\
    firstn (length x) (i_vals i) = vs /\
    length (i_deps i) = length outs /\
    (forall j d o, nth_error (i_deps i) j = Some d -> nth_error outs j = Some o ->
       exists a, tof (af_v o) = Some a /\ nth_error (i_vals i) d = Some a) /\
    exists zs t',
      mixed_run So Fo tof (resolve So p x) x' dx = Ok zs /\ length zs = length outs /\
      tape_zero_order Fo (tape_of i) x' = Ok t' /\ tape_y t' = Ok (map fst zs) /\
      tape_forward Fo t' dx = Ok (map snd zs)) as G.
  { intros x' dx L1 L2.
    pose proof (body_mixed So Fo tof false ltac:(discriminate) x' dx (w_next w)
      (resolve So p x) x vs w1 HS HF L1 L2 Hin) as H.
    rewrite E1 in H. destruct H as (ys & i2 & Ek & Hc2 & R2 & X2 & HR).
    pose proof (set_dep_slice_mixed Fo tof x' dx (w_next w) outs ys w2 i2 HR Hc2 R2) as H3.
    rewrite E2 in H3.
    destruct H3 as (i3 & ds & Ch3 & X3 & R3 & Hd & HI & HL & HA & HSol).
    assert (i3 = i) by (destruct Ch3 as (_ & _ & A & _); congruence). subst i3.
    assert (i_deps i2 = [] /\ i_indeps i2 = seq 0 (length x)) as [Hd2 HI2].
    { destruct (run_keeps_io _ _ _ _ _ _ _ E1) as [A1 A2].
      specialize (A1 (w_next w)). specialize (A2 (w_next w)).
      rewrite Hin, Hc2 in A1, A2. cbn in A1, A2. rewrite LF. split; congruence. }
    rewrite Hd2 in Hd; cbn in Hd. rewrite HI2 in HI.
    split; [auto|]. split; [auto|]. split.
    { assert (ext (i_in vs) i) as (_ & _ & _ & l & ->) by (eapply ext_trans; eauto).
      cbn. rewrite LF, firstn_app, Nat.sub_diag, firstn_all, firstn_O, app_nil_r. auto. }
    split; [congruence|]. split; [intros j d o; rewrite Hd; apply HA|].
    assert (length ys = length outs) as Lys by (symmetry; eapply Forall2_length_eq; eauto).
    pose proof (rt_wf _ R3) as W3.
    destruct (zero_sweep_values Fo (tape_of i) x') as (t' & Ez & A1 & A2 & A3 & HV); auto.
    { unfold num_indeps; cbn. rewrite HI, seq_length. auto. }
    assert (Lv : length (t_vals t') = length (i_vals i)) by apply (va_len _ _ _ _ HV).
    assert (t' = mkTape (i_indeps i) (i_deps i) (i_ops i) (t_vals t')) as Et'.
    { destruct t'; cbn in *; congruence. }
    assert (wf_tape t') as W'.
    { rewrite Et'. apply (wf_tape_vals (tape_of i)); auto. }
    destruct (forward_tangents Fo t' dx W') as (darr & dy & HTan & Ef & Eg).
    { unfold num_indeps. rewrite A1. cbn. rewrite HI, seq_length. auto. }
    assert (sols Fo x' dx i (t_vals t') darr) as Hsol.
    { apply sols_of_sweeps; auto. rewrite <- Et'. auto. }
    exists (map (as_dual Fo tof) ys), t'. split; [unfold mixed_run; rewrite Ek; auto|].
    split; [rewrite map_length; auto|].
    split; [auto|]. split.
    - unfold tape_y. rewrite A2. cbn. apply gather_from_nth.
      + rewrite !map_length. congruence.
      + intros j d Hj. rewrite Hd in Hj.
        destruct (HSol (t_vals t') darr i (ext_refl i) Hsol j d Hj) as (y & B1 & B2 & B3).
        exists (fst (as_dual Fo tof y)). split; auto. rewrite map_map, nth_error_map, B1. auto.
    - rewrite Ef. rewrite <- Eg. rewrite A2. cbn. apply gather_from_nth.
      + rewrite !map_length. congruence.
      + intros j d Hj. rewrite Hd in Hj.
        destruct (HSol (t_vals t') darr i (ext_refl i) Hsol j d Hj) as (y & B1 & B2 & B3).
        exists (snd (as_dual Fo tof y)). split; auto. rewrite map_map, nth_error_map, B1. auto. }
  destruct (G vs vs (eq_sym LF) (eq_sym LF)) as (R & HI & HV & HLd & HA & _).
  split; [auto|]. split; [auto|]. split.
  { unfold tape_x; cbn. rewrite HI. rewrite <- (conv_list _ _ HF).
    apply gather_from_nth; [rewrite seq_length; auto|].
    intros j d Hj.
    assert (j < length x) as Hlt
      by (rewrite <- (seq_length (length x) 0); apply nth_error_Some; congruence).
    rewrite (nth_error_nth' _ 0) in Hj by (rewrite seq_length; lia).
    rewrite seq_nth in Hj by lia. injection Hj as <-. cbn.
    destruct (nth_error vs j) as [v|] eqn:Ev; [|apply nth_error_None in Ev; lia].
    exists v. split; auto.
    rewrite <- (firstn_skipn (length x) (i_vals i)), HV, nth_error_app1; auto. lia. }
  split.
  { unfold tape_y; cbn. apply gather_from_nth; [rewrite !map_length; auto|].
    intros j d Hj.
    destruct (nth_error outs j) as [o|] eqn:Eo.
    - destruct (HA j d o Hj Eo) as (a & A1 & A2). exists a. split; [|auto].
      rewrite !nth_error_map, Eo. cbn. unfold conv. rewrite A1. auto.
    - apply nth_error_None in Eo. assert (j < length (i_deps i)) by (apply nth_error_Some; congruence).
      lia. }
  split.
  { intros s Hs. apply in_app_or in Hs as [Hs|Hs].
    - clear -HF Hs. induction HF as [|s' v x vs E HF IH]; [contradiction|].
      destruct Hs as [<-|Hs]; [congruence|auto].
    - apply in_map_iff in Hs as (o & <- & Ho). apply In_nth_error in Ho as [j Hj].
      destruct (nth_error (i_deps i) j) as [d|] eqn:Ed.
      + destruct (HA j d o Ed Hj) as (a & A1 & _). congruence.
      + apply nth_error_None in Ed. assert (j < length outs) by (apply nth_error_Some; congruence).
        lia. }
  intros x' dx L1 L2. destruct (G x' dx L1 L2) as (_ & _ & _ & _ & _ & zs & t' & A).
  exists zs, t'. rewrite map_length. exact A.
Qed.

(** Whether a program without branches panics does not depend on the numbers. *)
Lemma shape_mixed p x y zs :
  straight p -> v_run So p x = Ok y -> length x = length zs ->
  exists ys, run So (mixed_op So Fo tof) FromConstants (mixed_branch So) p zs tt = Ok (ys, tt).
Proof.
  intros HS E L.
  assert (H := sim_run So (v_fop So) (fun c => c) (fun v => v) (mixed_op So Fo tof) FromConstants
    (mixed_branch So) true (fun _ _ : unit => True) (fun _ _ _ => True) (fun _ _ _ => True)
    (fun _ => I) (fun _ _ _ _ _ => I) (fun _ _ _ _ _ _ => I)).
  assert (Hop : forall (w : unit) oc x1 y1 x2 y2, arity_ok oc y1 -> True ->
    orel (fun _ _ => True) y1 y2 ->
    simM true (fun _ _ : unit => True) (fun _ (_ _ : unit) => True) (fun _ _ _ => True) w
      (v_fop So oc x1 y1) (mixed_op So Fo tof oc x2 y2)).
  { intros u oc x1 y1 x2 y2 Ha _ Hy s1 [] _.
    assert (arity_ok oc y2) as Ha2 by (destruct y1, y2; cbn in *; auto; contradiction).
    assert (exists r, mixed_op So Fo tof oc x2 y2 tt = Ok (r, tt)) as [r Er].
    { destruct (is_const x2 && match y2 with Some z => is_const z | None => true end) eqn:Eb.
      - destruct x2 as [a|], y2 as [[b|]|]; try discriminate; cbn; unfold v_fop, mbind, mlift.
        + destruct (zero_order_value_total So oc a (Some b)) as [v ->];
            [right; split; [auto|discriminate]|eexists; reflexivity].
        + destruct (zero_order_value_total So oc a None) as [v ->]; [left; auto|eexists; reflexivity].
      - rewrite mixed_op_inputs; auto. unfold d_fop, mbind, mlift.
        set (a := as_dual Fo tof x2). set (b := option_map (as_dual Fo tof) y2).
        destruct (zero_order_value_total Fo oc (fst a) (option_map fst b)) as [v ->].
        { subst b. destruct y2; cbn in *; [right; split; auto; discriminate|auto]. }
        destruct (first_order_value_total Fo oc (fst a) (option_map fst b) (snd a)
          (option_map snd b)) as [d ->].
        { subst b. destruct y2; cbn in *; [right; repeat split; auto; discriminate|auto]. }
        eexists; reflexivity. }
    unfold v_fop, mlift.
    destruct (zero_order_value_total So oc x1 y1) as [v ->].
    { destruct y1; cbn in *; [right; split; auto; discriminate|auto]. }
    exists r, tt, tt. auto. }
  specialize (H Hop (fun _ _ => I) p (or_intror HS) tt x zs).
  assert (HF : Forall2 (fun (_ : Sc) (_ : mixed) => True) x zs).
  { clear -L. revert zs L; induction x; intros [|z zs] L; try discriminate; constructor; auto. }
  specialize (H HF tt tt I). unfold v_run in E.
  destruct (run So (v_fop So) (fun c => c) (fun v => v) p x tt) as [[r []]|]; [|discriminate].
  destruct H as (b & [] & _ & -> & _). eauto.
Qed.

(** With a number type all of whose numbers convert, a recording panics exactly when the plain
    run of the program panics. *)
Theorem record_prog_total p x w :
  (forall s, tof s <> None) ->
  ((exists t w', record_prog So tof p x w = Ok (t, w')) <-> (exists y, v_run So p x = Ok y)).
Proof.
  intros Ht. split.
  - intros (t & w' & E). destruct (record_prog_main _ _ _ _ _ E) as (y & Ey & _). eauto.
  - intros (y & Ey).
    unfold record_prog, mbind, ctx_new.
    set (c := w_next w). set (w0 := mkWorld _ _).
    pose proof (set_indeps_mixed So tof c x w0 (mkInner [] [] [] [])) as H1.
    destruct (set_indeps tof c (map (af_const So) x) w0) as [[ins w1]|].
    2:{ destruct H1 as (s & _ & Hs); [cbn; rewrite Nat.eqb_refl; auto|]. destruct (Ht _ Hs). }
    destruct H1 as (vs & HF & -> & Ch1).
    { cbn. rewrite Nat.eqb_refl; auto. }
    cbn in Ch1. cbn [i_vals length].
    pose proof (Forall2_length_eq _ _ _ HF) as LF.
    assert (Hin : w_ctx w1 c = Some (i_in vs)).
    { destruct Ch1 as (_ & _ & A & _). rewrite A. unfold i_in. rewrite <- LF. auto. }
    pose proof (body_mixed So Fo tof true (fun _ => Ht) vs vs c
      (resolve So p x) x vs w1 (resolve_straight So p x) HF (eq_sym LF) (eq_sym LF) Hin) as H.
    assert (run_af So tof (resolve So p x) (mk_inputs' So c 0 x) w1 =
      run_af So tof p (mk_inputs' So c 0 x) w1) as Eres
      by (rewrite (run_af_resolve p), mk_inputs_values; auto).
    rewrite Eres in H. clear Eres.
    destruct (run_af So tof p (mk_inputs' So c 0 x) w1) as [[outs w2]|q] eqn:E2.
    2:{ exfalso. specialize (H eq_refl).
        assert (Ey' : v_run So (resolve So p x) x = Ok y).
        { pose proof (v_eval_resolve So (Simple 0 0 p) x) as V.
          unfold v_eval in V. cbn [resolve_f feval] in V. unfold v_run in Ey |- *. congruence. }
        destruct (shape_mixed (resolve So p x) x y
          (map (fun xd => FromInputs (fst xd) (snd xd)) (combine vs vs))
          (resolve_straight So p x)) as [zs Z]; auto.
        - rewrite map_length, combine_length. lia.
        - rewrite Z in H. discriminate. }
    destruct H as (ys & i2 & Ek & Hc2 & R2 & X2 & HR).
    pose proof (set_dep_slice_mixed Fo tof vs vs c outs ys w2 i2 HR Hc2 R2) as H3.
    destruct (set_dep_slice tof c outs w2) as [[[] w3]|p3].
    2:{ destruct H3 as (o & _ & Ho). destruct (Ht _ Ho). }
    destruct H3 as (i3 & ds & Ch3 & _).
    unfold ctx_tape, with_ctx. assert (w_ctx w3 c = Some i3) as -> by apply Ch3.
    cbn. eexists _, _; reflexivity.
Qed.

(** ** Replaying where it was recorded *)
Definition RVe (P : Prop) (a : Sc) (z : mixed) : Prop :=
  P -> fst (as_dual Fo tof z) = conv Fo tof a /\ (is_const z = true -> z = FromConstants a).

Lemma exact_mixed p x zs P ys P' :
  straight p -> Forall2 (RVe P) x zs ->
  run So (exact_op So Fo tof) (fun c => c) (fun v => v) p x P = Ok (ys, P') ->
  exists rs, run So (mixed_op So Fo tof) FromConstants (mixed_branch So) p zs tt = Ok (rs, tt) /\
    Forall2 (RVe P') ys rs.
Proof.
  intros HS HF E.
  assert (H := sim_run So (exact_op So Fo tof) (fun c => c) (fun v => v)
    (mixed_op So Fo tof) FromConstants (mixed_branch So) true
    (fun P P' : Prop => P' -> P) (fun w s1 (s2 : unit) => s1 = w) RVe
    (fun _ h => h) (fun a b c h1 h2 h => h1 (h2 h))
    (fun a b x y h R hb => R (h hb))).
  assert (Hop : forall (w : Prop) oc x1 y1 x2 y2, arity_ok oc y1 -> RVe w x1 x2 ->
    orel (RVe w) y1 y2 ->
    simM true (fun P P' : Prop => P' -> P) (fun w s1 (s2 : unit) => s1 = w) RVe w
      (exact_op So Fo tof oc x1 y1) (mixed_op So Fo tof oc x2 y2)).
  { intros w oc x1 y1 x2 y2 Ha Hx Hy s1 [] ->.
    assert (arity_ok oc y2) as Ha2 by (destruct y1, y2; cbn in *; auto; contradiction).
    unfold exact_op.
    destruct (zero_order_value_total So oc x1 y1) as [v Ev].
    { destruct y1; cbn in *; [right; split; auto; discriminate|auto]. }
    rewrite Ev.
    destruct (is_const x2 && match y2 with Some z => is_const z | None => true end) eqn:Eb.
    - assert (exists r, mixed_op So Fo tof oc x2 y2 tt = Ok (FromConstants r, tt) /\
        (w -> r = v)) as (r & Er & Hr).
      { destruct x2 as [a|], y2 as [[b|]|]; try discriminate; cbn; unfold v_fop, mbind, mlift.
        - destruct (zero_order_value_total So oc a (Some b)) as [r Er].
          { right; split; [auto|discriminate]. }
          rewrite Er. exists r. split; [reflexivity|]. intros Hw.
          destruct y1 as [y1|]; [|contradiction]. cbn in Hy.
          destruct (Hx Hw) as [_ X]. destruct (Hy Hw) as [_ Y].
          specialize (X eq_refl). specialize (Y eq_refl). congruence.
        - destruct (zero_order_value_total So oc a None) as [r Er]; [left; auto|].
          rewrite Er. exists r. split; [reflexivity|]. intros Hw.
          destruct y1 as [y1|]; [contradiction|].
          destruct (Hx Hw) as [_ X]. specialize (X eq_refl). congruence. }
      rewrite Er. eexists _, _, _. split; [reflexivity|].
      split; [|split; [reflexivity|]]; [tauto|].
      intros [Hw _]. rewrite (Hr Hw). split; auto.
    - rewrite mixed_op_inputs; auto. unfold d_fop, mbind, mlift.
      set (a := as_dual Fo tof x2) in *. set (b := option_map (as_dual Fo tof) y2).
      destruct (zero_order_value_total Fo oc (fst a) (option_map fst b)) as [u Eu].
      { subst b. destruct y2; cbn in *; [right; split; auto; discriminate|auto]. }
      rewrite Eu.
      destruct (first_order_value_total Fo oc (fst a) (option_map fst b) (snd a)
        (option_map snd b)) as [d Ed].
      { subst b. destruct y2; cbn in *; [right; repeat split; auto; discriminate|auto]. }
      rewrite Ed.
      eexists _, _, _. split; [reflexivity|]. split; [|split; [reflexivity|]]; [tauto|].
      intros [Hw HE]. split; [|discriminate]. cbn.
      destruct (Hx Hw) as [X _]. fold a in X. rewrite X in Eu.
      assert (option_map fst b = option_map (conv Fo tof) y1) as Y.
      { subst b. destruct y1 as [y1|], y2 as [y2|]; cbn in *; try contradiction; auto.
        destruct (Hy Hw) as [Y _]. congruence. }
      rewrite Y in Eu. congruence. }
  specialize (H Hop (fun _ _ _ => conj eq_refl (fun _ => eq_refl)) p (or_intror HS) P x zs HF P tt
    eq_refl).
  rewrite E in H. destruct H as (b & [] & w' & -> & L & <- & HR). eauto.
Qed.

Lemma exact_run_values p x P ys P' :
  run So (exact_op So Fo tof) (fun c => c) (fun v => v) p x P = Ok (ys, P') ->
  run So (exact_op So Fo tof) (fun c => c) (fun v => v) (resolve So p x) x P = Ok (ys, P') /\
  v_run So p x = Ok ys.
Proof.
  intros E.
  assert (Hv : forall oc x y (w : Prop) r w',
    arity_ok oc y -> exact_op So Fo tof oc x y w = Ok (r, w') ->
    zero_order_value So oc ((fun v => v) x) (option_map (fun v => v) y) = Ok ((fun v => v) r)).
  { intros oc a y w r w' _. unfold exact_op.
    replace (option_map (fun v : Sc => v) y) with y by (destruct y; auto).
    destruct (zero_order_value So oc a y); congruence. }
  split.
  - pose proof (feval_resolve So (exact_op So Fo tof) (fun c => c) (fun v => v) Hv
      (fun _ => eq_refl) (Simple 0 0 p) x P) as H. rewrite map_id in H. cbn [feval resolve_f] in H.
    congruence.
  - pose proof (feval_values So (exact_op So Fo tof) (fun c => c) (fun v => v) Hv
      (fun _ => eq_refl) (Simple 0 0 p) x P ys P') as H. rewrite !map_id in H. apply H. exact E.
Qed.

Theorem exact_replay p x w t w' :
  record_prog So tof p x w = Ok (t, w') -> converts_exactly So Fo tof p x ->
  exists t', tape_zero_order Fo t (map (conv Fo tof) x) = Ok t' /\ tape_y t' = tape_y t.
Proof.
  intros HT HC. destruct (record_prog_main _ _ _ _ _ HT) as (y & Ey & _ & _ & _ & Hy & _ & H).
  destruct (H (map (conv Fo tof) x) (map (conv Fo tof) x)) as (zs & t' & Em & _ & Ez & Et & _);
    try apply map_length.
  exists t'. split; [auto|]. rewrite Et, Hy. f_equal.
  destruct (run So (exact_op So Fo tof) (fun c => c) (fun v => v) p x True) as [[ys P]|q] eqn:Ee.
  - pose proof (HC ys P Ee) as HP.
    destruct (exact_run_values _ _ _ _ _ Ee) as [Er Ev].
    assert (ys = y) by congruence. subst ys.
    destruct (exact_mixed _ x (map (fun xd => FromInputs (fst xd) (snd xd))
       (combine (map (conv Fo tof) x) (map (conv Fo tof) x))) True y P
       (resolve_straight So p x)) as (rs & Ers & HR); auto.
    { clear. induction x as [|a x IH]; cbn; constructor; auto.
      intros _. cbn. split; [auto|discriminate]. }
    unfold mixed_run in Em. rewrite Ers in Em. cbn in Em. injection Em as <-.
    clear -HR HP. induction HR as [|a b l l' Hab HR IH]; cbn; auto.
    destruct (Hab HP) as [A _]. congruence.
  - exfalso.
    assert (H2 := sim_run So (exact_op So Fo tof) (fun c => c) (fun v => v)
      (v_fop So) (fun c => c) (fun v => v) true
      (fun _ _ : unit => True) (fun _ _ _ => True) (fun _ a b => a = b)
      (fun _ => I) (fun _ _ _ _ _ => I) (fun _ _ _ _ _ h => h)).
    specialize (H2 ltac:(intros u oc x1 y1 x2 y2 _ <- Hyy s1 [] _;
      assert (y1 = y2) as <- by (destruct y1, y2; cbn in Hyy; try contradiction; congruence);
      unfold exact_op, v_fop, mlift; destruct (zero_order_value So oc x1 y1); eauto;
      eexists _, _, tt; split; [reflexivity|]; auto)).
    specialize (H2 (fun _ _ => eq_refl) p (or_introl (fun w a b h => h)) tt x x
      ltac:(clear; induction x; constructor; auto) True tt I).
    rewrite Ee in H2. unfold v_run in Ey. rewrite H2 in Ey; [discriminate|auto].
Qed.

(** Programs without branches. *)
Lemma record_prog_straight p x w t w' :
  straight p -> record_prog So tof p x w = Ok (t, w') ->
  forall x' dx, length x' = length x -> length dx = length x ->
  exists zs t',
    mixed_run So Fo tof p x' dx = Ok zs /\
    tape_zero_order Fo t x' = Ok t' /\ tape_y t' = Ok (map fst zs) /\
    tape_forward Fo t' dx = Ok (map snd zs).
Proof.
  intros HS HT x' dx L1 L2.
  destruct (record_prog_main _ _ _ _ _ HT) as (y & Ey & _ & _ & _ & _ & _ & H).
  rewrite (resolve_id So p HS x) in H by congruence.
  destruct (H x' dx L1 L2) as (zs & t' & A & _ & B). eauto.
Qed.

Lemma record_prog_values p x w t w' :
  record_prog So tof p x w = Ok (t, w') ->
  exists y, v_run So p x = Ok y /\
    tape_x t = Ok (map (conv Fo tof) x) /\ tape_y t = Ok (map (conv Fo tof) y) /\
    (forall s, In s (x ++ y) -> tof s = Some (conv Fo tof s)).
Proof.
  intros HT. destruct (record_prog_main _ _ _ _ _ HT) as (y & Ey & _ & _ & A & B & C & _).
  exists y. repeat split; auto. intros s Hs. apply C in Hs. unfold conv.
  destruct (tof s); congruence.
Qed.

Lemma record_prog_path p x w t w' :
  record_prog So tof p x w = Ok (t, w') ->
  forall x' dx, length x' = length x -> length dx = length x ->
  exists zs t',
    mixed_run So Fo tof (resolve So p x) x' dx = Ok zs /\
    tape_zero_order Fo t x' = Ok t' /\ tape_y t' = Ok (map fst zs) /\
    tape_forward Fo t' dx = Ok (map snd zs).
Proof.
  intros HT x' dx L1 L2.
  destruct (record_prog_main _ _ _ _ _ HT) as (y & Ey & _ & _ & _ & _ & _ & H).
  destruct (H x' dx L1 L2) as (zs & t' & A & _ & B). eauto.
Qed.
End Main.

(** [Function::tape] records like this, with [S = f64]. *)
Lemma fn_tape_record {F} (Fo : Fops F) n m p x w :
  fn_tape Fo (Simple n m p) x w = record_prog Fo Some p x w.
Proof. reflexivity. Qed.
