(** Outputs depend only on the inputs they are connected with. *)
From Coq Require Import List Arith ZArith Bool Lia Sorted SpecFloat.
From Verif Require Import Base Float FloatInst Operation Tape Spec TapeFacts SweepFacts SparseSpec.
Import ListNotations.

Lemma leads_right ops i o j : leads ops i j -> In o ops -> uses o j -> leads ops i (vid o).
Proof.
  induction 1 as [i|i o' j Ho' U H IH]; intros Ho Uo.
  - eapply leads_step; [exact Ho|exact Uo|constructor].
  - eapply leads_step; [exact Ho'|exact U|auto].
Qed.

Section Sparse.
Context {F : Type} (Fo : Fops F).

Lemma value_inv arr o : value_eq Fo arr o -> opcode o <> Nop -> opcode o <> Const ->
  exists i a r, arg1 o = Some i /\ nth_error arr i = Some a /\ nth_error arr (vid o) = Some r /\
    match arg2 o with
    | None => zero_order_value Fo (opcode o) a None = Ok r
    | Some j => exists b, nth_error arr j = Some b /\ zero_order_value Fo (opcode o) a (Some b) = Ok r
    end.
Proof. unfold value_eq. destruct (opcode o); try congruence; auto. Qed.

Lemma works_dec (ops : list operation) k :
  (exists o, In o ops /\ vid o = k /\ opcode o <> Nop /\ opcode o <> Const) \/
  (forall o, In o ops -> vid o = k -> opcode o = Const \/ opcode o = Nop).
Proof.
  induction ops as [|o ops IH].
  - right. intros o [].
  - destruct IH as [(o' & A & B)|IH]; [left; exists o'; split; [right|]; auto|].
    destruct (Nat.eq_dec (vid o) k) as [E|E].
    + destruct (opcode_eqb (opcode o) Nop) eqn:E1.
      { right. intros o' [<-|H] V; auto. right. now apply opcode_eqb_eq. }
      destruct (opcode_eqb (opcode o) Const) eqn:E2.
      { right. intros o' [<-|H] V; auto. left. now apply opcode_eqb_eq. }
      left. exists o. repeat split; auto; [left; auto| |]; intros Eq; apply opcode_eqb_eq in Eq; congruence.
    + right. intros o' [<-|H] V; auto. congruence.
Qed.

(** ** Values *)
Section Values.
Context (t : tape F) (x x' arr arr' : list F) (W : wf_tape t)
  (V : values_at Fo t x arr) (V' : values_at Fo t x' arr').

Lemma values_local k : k < length (t_vals t) ->
  (forall i a, nth_error (t_indeps t) i = Some a -> leads (t_ops t) a k -> nth_error x i = nth_error x' i) ->
  nth_error arr k = nth_error arr' k.
Proof.
  induction k as [k IH] using (well_founded_induction lt_wf); intros Hk H.
  destruct (in_dec Nat.eq_dec k (t_indeps t)) as [Hi|Hi].
  { apply In_nth_error in Hi as [i Ei]. destruct (va_seed _ _ _ _ V i k Ei) as (a & A1 & A2).
    destruct (va_seed _ _ _ _ V' i k Ei) as (b & B1 & B2). specialize (H i k Ei (leads_refl _ _)). congruence. }
  destruct (works_dec (t_ops t) k) as [(o & Ho & <- & NN & NC)|HK].
  - destruct (wf_op_args _ _ (wf_ops _ W _ Ho) NN NC) as (_ & i & Ei & Li & H2).
    destruct (value_inv _ _ (va_op _ _ _ _ V _ Ho) NN NC) as (i1 & a & r & A1 & A2 & A3 & A4).
    destruct (value_inv _ _ (va_op _ _ _ _ V' _ Ho) NN NC) as (i2 & b & s & B1 & B2 & B3 & B4).
    assert (i1 = i) as -> by congruence. assert (i2 = i) as -> by congruence.
    assert (nth_error arr i = nth_error arr' i) as E1.
    { apply IH; [auto|lia|]. intros m c Em L. apply (H m c Em). eapply leads_right; eauto. repeat split; auto. }
    assert (a = b) as -> by congruence. rewrite A3, B3.
    destruct H2 as [(_ & _ & E)|(_ & _ & j & E & Lj)]; rewrite E in *; [congruence|].
    destruct A4 as (c & C1 & C2), B4 as (d & D1 & D2).
    assert (nth_error arr j = nth_error arr' j) as E2.
    { apply IH; [auto|lia|]. intros m c' Em L. apply (H m c' Em). eapply leads_right; eauto. repeat split; auto. }
    assert (c = d) as -> by congruence. congruence.
  - rewrite (va_keep _ _ _ _ V k Hk Hi HK), (va_keep _ _ _ _ V' k Hk Hi HK). reflexivity.
Qed.
End Values.

Lemma gather_nth_error ids arr (y : list F) k b : gather ids arr = Ok y -> nth_error ids k = Some b ->
  nth_error y k = nth_error arr b.
Proof.
  unfold gather. revert y k. induction ids as [|i ids IH]; intros y k E H; [destruct k; discriminate|].
  cbn in E. apply bind_ok in E as (a & Ea & E). apply bind_ok in E as (l & El & [= <-]).
  destruct k as [|k]; cbn in H |- *.
  - injection H as ->. apply get_ok in Ea. auto.
  - eapply IH; eauto.
Qed.

Theorem values_connected t x x' t1 t2 y y' k :
  wf_tape t -> tape_zero_order Fo t x = Ok t1 -> tape_zero_order Fo t x' = Ok t2 ->
  tape_y t1 = Ok y -> tape_y t2 = Ok y' -> k < num_deps t ->
  (forall i, connected t i k -> nth_error x i = nth_error x' i) ->
  nth_error y k = nth_error y' k /\ nth_error y k <> None.
Proof.
  intros W E1 E2 Y1 Y2 Hk H.
  assert (length x = num_indeps t) as L1.
  { unfold tape_zero_order in E1. destruct (Nat.eqb_spec (length x) (num_indeps t)); [auto|discriminate]. }
  assert (length x' = num_indeps t) as L2.
  { unfold tape_zero_order in E2. destruct (Nat.eqb_spec (length x') (num_indeps t)); [auto|discriminate]. }
  destruct (zero_sweep_values Fo t x W L1) as (t1' & Q1 & _ & D1 & _ & V1).
  destruct (zero_sweep_values Fo t x' W L2) as (t2' & Q2 & _ & D2 & _ & V2).
  assert (t1' = t1) as -> by congruence. assert (t2' = t2) as -> by congruence.
  unfold tape_y in *. rewrite D1 in Y1. rewrite D2 in Y2.
  destruct (nth_error (t_deps t) k) as [b|] eqn:Eb; [|apply nth_error_None in Eb; unfold num_deps in Hk; lia].
  rewrite (gather_nth_error _ _ _ _ _ Y1 Eb), (gather_nth_error _ _ _ _ _ Y2 Eb).
  pose proof (wf_dep_range _ W b (nth_error_In _ _ Eb)) as Lb. split.
  - eapply values_local; eauto. intros i a Ea L. apply H. exists a, b. auto.
  - apply nth_error_Some. rewrite (va_len _ _ _ _ V1). auto.
Qed.

(** ** Tangents *)
Theorem tangents_connected t dx dx' dy dy' k :
  wf_tape t -> length dx = num_indeps t -> length dx' = num_indeps t ->
  tape_forward Fo t dx = Ok dy -> tape_forward Fo t dx' = Ok dy' -> k < num_deps t ->
  (forall i, connected t i k -> nth_error dx i = nth_error dx' i) ->
  nth_error dy k = nth_error dy' k /\ nth_error dy k <> None.
Proof.
  intros W L1 L2 E1 E2 Hk H.
  destruct (forward_tangents Fo t dx W L1) as (D & d1 & T1 & Q1 & G1).
  destruct (forward_tangents Fo t dx' W L2) as (D' & d2 & T2 & Q2 & G2).
  assert (d1 = dy) as -> by congruence. assert (d2 = dy') as -> by congruence.
  destruct (nth_error (t_deps t) k) as [b|] eqn:Eb; [|apply nth_error_None in Eb; unfold num_deps in Hk; lia].
  rewrite (gather_nth_error _ _ _ _ _ G1 Eb), (gather_nth_error _ _ _ _ _ G2 Eb).
  pose proof (wf_dep_range _ W b (nth_error_In _ _ Eb)) as Lb. split.
  2: { apply nth_error_Some. rewrite (ta_len _ _ _ _ T1). auto. }
  assert (forall i a, nth_error (t_indeps t) i = Some a -> leads (t_ops t) a b -> nth_error dx i = nth_error dx' i) as HB.
  { intros i a Ea L. apply H. exists a, b. auto. }
  clear H Eb Hk E1 E2 G1 G2. revert Lb HB.
  induction b as [b IH] using (well_founded_induction lt_wf); intros Lb H.
  destruct (in_dec Nat.eq_dec b (t_indeps t)) as [Hi|Hi].
  { apply In_nth_error in Hi as [i Ei]. destruct (ta_seed _ _ _ _ T1 i b Ei) as (a & A1 & A2).
    destruct (ta_seed _ _ _ _ T2 i b Ei) as (c & B1 & B2). specialize (H i b Ei (leads_refl _ _)). congruence. }
  destruct (in_dec Nat.eq_dec b (def_ids (t_ops t))) as [Hd|Hd].
  2: { rewrite (ta_zero _ _ _ _ T1), (ta_zero _ _ _ _ T2); auto. }
  apply in_def_ids in Hd as (o & Ho & NN & <-).
  pose proof (ta_op _ _ _ _ T1 _ Ho) as V1. pose proof (ta_op _ _ _ _ T2 _ Ho) as V2.
  destruct (opcode_eqb (opcode o) Const) eqn:EC.
  { apply opcode_eqb_eq in EC. unfold tangent_eq in V1, V2. rewrite EC in V1, V2. congruence. }
  assert (opcode o <> Const) as NC by (intros E; apply opcode_eqb_eq in E; congruence).
  destruct (wf_op_args _ _ (wf_ops _ W _ Ho) NN NC) as (_ & i & Ei & Li & H2).
  apply tangent_eq_inv in V1, V2; auto.
  destruct V1 as (i1 & a1 & p1 & r1 & A1 & A2 & A3 & A4 & A5), V2 as (i2 & a2 & p2 & r2 & B1 & B2 & B3 & B4 & B5).
  assert (i1 = i) as -> by congruence. assert (i2 = i) as -> by congruence.
  assert (nth_error D i = nth_error D' i) as F1.
  { apply IH; [auto|lia|]. intros m c Em L. apply (H m c Em). eapply leads_right; eauto. repeat split; auto. }
  assert (a1 = a2) as -> by congruence. assert (p1 = p2) as -> by congruence. rewrite A4, B4.
  destruct H2 as [(_ & _ & E)|(_ & _ & j & E & Lj)]; rewrite E in *; [congruence|].
  destruct A5 as (b1 & e1 & C1 & C2 & C3), B5 as (b2 & e2 & D1 & D2 & D3).
  assert (nth_error D j = nth_error D' j) as F2.
  { apply IH; [auto|lia|]. intros m c Em L. apply (H m c Em). eapply leads_right; eauto. repeat split; auto. }
  assert (b1 = b2) as -> by congruence. assert (e1 = e2) as -> by congruence. congruence.
Qed.

(** ** Adjoints *)

(** What the reverse step of an operation adds to the adjoints of its arguments, as a function of
    the adjoint of its result *)
Definition adj1 (oc : OpCode) (x y b : F) : F :=
  match oc with
  | Add | Sub => b
  | Mul => f_mul Fo b y
  | Div => f_div Fo (f_mul Fo b (f_one Fo)) y
  | Powf => f_mul Fo (f_mul Fo b y) (f_powf Fo x (f_sub Fo y (f_one Fo)))
  | _ => match first_order_value Fo oc x None (f_one Fo) None with Ok d => f_mul Fo b d | _ => b end
  end.
Definition adj2 (oc : OpCode) (x y b : F) : F :=
  match oc with
  | Sub => f_neg Fo b
  | Mul => f_mul Fo b x
  | Div => f_mul Fo b (f_div Fo (f_neg Fo x) (f_powi Fo y 2))
  | Powf => f_mul Fo (f_mul Fo b (f_ln Fo x)) (f_powf Fo x y)
  | _ => b
  end.

Lemma add_at_val (vb : list F) i d : i < length vb -> exists a, nth_error vb i = Some a /\
  add_at Fo vb i d = Ok (update vb i (f_add Fo a d)).
Proof.
  intros H. unfold add_at. destruct (get_lt vb i H) as [a Ea]. rewrite Ea. cbn. rewrite set_lt by auto.
  exists a. apply get_ok in Ea. auto.
Qed.

Lemma reverse_shape N o (v vb : list F) :
  wf_op N o -> opcode o <> Abs -> opcode o <> Nop -> opcode o <> Const -> length v = N -> length vb = N ->
  exists i b a x, arg1 o = Some i /\ i < vid o /\ nth_error vb (vid o) = Some b /\ nth_error vb i = Some a /\
    nth_error v i = Some x /\
    ((arg2 o = None /\ op_first_order_reverse Fo o v vb = Ok (update vb i (f_add Fo a (adj1 (opcode o) x x b)))) \/
     (exists j c y, arg2 o = Some j /\ j < vid o /\ nth_error v j = Some y /\
        nth_error (update vb i (f_add Fo a (adj1 (opcode o) x y b))) j = Some c /\
        op_first_order_reverse Fo o v vb
        = Ok (update (update vb i (f_add Fo a (adj1 (opcode o) x y b))) j (f_add Fo c (adj2 (opcode o) x y b))))).
Proof.
  intros W NA NN NC Lv Lb. destruct (wf_op_args N o W NN NC) as (Hv & i & Ei & Hi & H2).
  destruct (get_lt vb (vid o) ltac:(lia)) as [b Eb]. destruct (get_lt v i ltac:(lia)) as [x Ex].
  destruct (get_lt vb i ltac:(lia)) as [a Ea].
  exists i, b, a, x. split; [auto|]. split; [auto|]. split; [apply get_ok; auto|]. split; [apply get_ok; auto|].
  split; [apply get_ok; auto|].
  assert (forall d, add_at Fo vb i d = Ok (update vb i (f_add Fo a d))) as HA.
  { intros d. unfold add_at. rewrite Ea. cbn. rewrite set_lt by lia. reflexivity. }
  destruct H2 as [(U & B & E)|(B & U & j & E & Hj)].
  - left. split; auto. unfold op_first_order_reverse, adj1. rewrite Ei.
    destruct (opcode o) eqn:Eo; try discriminate; try congruence; cbn [unwrap bind];
      rewrite Ex; cbn [bind]; rewrite Eb; cbn [bind first_order_value]; apply HA.
  - right. destruct (get_lt v j ltac:(lia)) as [y Ey].
    set (vb1 := update vb i (f_add Fo a (adj1 (opcode o) x y b))).
    assert (length vb1 = N) as L1 by (unfold vb1; rewrite update_length; auto).
    destruct (get_lt vb1 j ltac:(lia)) as [c Ec].
    assert (get vb1 (vid o) = Ok b) as Eb1.
    { apply get_ok. unfold vb1. rewrite nth_error_update_neq by lia. apply get_ok; auto. }
    exists j, c, y. split; [auto|]. split; [auto|]. split; [apply get_ok; auto|]. split; [apply get_ok; auto|].
    assert (forall d, add_at Fo vb1 j d = Ok (update vb1 j (f_add Fo c d))) as HB.
    { intros d. unfold add_at. rewrite Ec. cbn. rewrite set_lt by lia. reflexivity. }
    unfold op_first_order_reverse. rewrite Ei, E. unfold vb1, adj1, adj2 in *.
    destruct (opcode o) eqn:Eo; try discriminate; try congruence; cbn [unwrap bind];
      rewrite ?Ex; cbn [bind]; rewrite ?Ey; cbn [bind]; rewrite Eb; cbn [bind]; rewrite HA; cbn [bind];
      rewrite Eb1; cbn [bind]; apply HB.
Qed.

Section Adjoints.
Context (bad : nat -> Prop).

Definition same_good (l l' : list F) : Prop := forall j, bad j \/ nth_error l j = nth_error l' j.

Lemma same_update l l' i a a' : length l = length l' -> same_good l l' -> bad i \/ a = a' ->
  same_good (update l i a) (update l' i a').
Proof.
  intros L H E j. destruct (Nat.eq_dec i j) as [<-|N].
  - destruct E as [E| ->]; [auto|]. right. destruct (Nat.lt_ge_cases i (length l)).
    + rewrite !nth_error_update_eq by lia. auto.
    + rewrite !(proj2 (nth_error_None _ _)) by (rewrite update_length; lia). auto.
  - rewrite !nth_error_update_neq by auto. apply H.
Qed.

Lemma reverse_local N ops v : forall vb vb',
  (forall o, In o ops -> wf_op N o) -> (forall o, In o ops -> opcode o <> Abs) ->
  (forall o i, In o ops -> uses o i -> bad (vid o) -> bad i) ->
  (forall o, In o ops -> bad (vid o) \/ ~ bad (vid o)) ->
  length v = N -> length vb = N -> length vb' = N -> same_good vb vb' ->
  exists r r', foldM (fun vb o => op_first_order_reverse Fo o v vb) ops vb = Ok r /\
    foldM (fun vb o => op_first_order_reverse Fo o v vb) ops vb' = Ok r' /\
    length r = N /\ length r' = N /\ same_good r r'.
Proof.
  induction ops as [|o ops IH]; intros vb vb' W NA HC HD Lv L L' H; cbn [foldM].
  { exists vb, vb'. auto. }
  assert (exists r r', op_first_order_reverse Fo o v vb = Ok r /\ op_first_order_reverse Fo o v vb' = Ok r' /\
    length r = N /\ length r' = N /\ same_good r r') as (r & r' & -> & -> & Lr & Lr' & Hr).
  { destruct (opcode_eqb (opcode o) Nop) eqn:E1.
    { apply opcode_eqb_eq in E1. unfold op_first_order_reverse. rewrite E1. exists vb, vb'. auto. }
    destruct (opcode_eqb (opcode o) Const) eqn:E2.
    { apply opcode_eqb_eq in E2. unfold op_first_order_reverse. rewrite E2. exists vb, vb'. auto. }
    assert (opcode o <> Nop) as NN by (intros E; apply opcode_eqb_eq in E; congruence).
    assert (opcode o <> Const) as NC by (intros E; apply opcode_eqb_eq in E; congruence).
    assert (wf_op N o) as Wo by (apply W; left; auto). assert (opcode o <> Abs) as Ao by (apply NA; left; auto).
    destruct (reverse_shape N o v vb Wo Ao NN NC Lv L) as (i & b & a & x & Ei & Li & Eb & Ea & Ex & HS).
    destruct (reverse_shape N o v vb' Wo Ao NN NC Lv L') as (i' & b' & a' & x' & Ei' & Li' & Eb' & Ea' & Ex' & HS').
    assert (i' = i) as -> by congruence. assert (x' = x) as -> by congruence.
    destruct (HD o (or_introl eq_refl)) as [B|B].
    - assert (bad i) as Bi by (eapply HC; eauto; [left; auto|repeat split; auto]).
      destruct HS as [(E & R)|(j & c & y & E & Lj & Ey & Ec & R)], HS' as [(E' & R')|(j' & c' & y' & E' & Lj' & Ey' & Ec' & R')]; try congruence.
      + rewrite R, R'. eexists _, _. split; [reflexivity|]. split; [reflexivity|]. rewrite !update_length.
        do 2 (split; [auto|]). apply same_update; auto. congruence.
      + assert (j' = j) as -> by congruence.
        assert (bad j) as Bj by (eapply HC; eauto; [left; auto|repeat split; auto]).
        rewrite R, R'. eexists _, _. split; [reflexivity|]. split; [reflexivity|]. rewrite !update_length.
        do 2 (split; [auto|]). apply same_update; [rewrite !update_length; congruence| |auto].
        apply same_update; auto. congruence.
    - assert (b = b') as <- by (destruct (H (vid o)); [contradiction|congruence]).
      destruct HS as [(E & R)|(j & c & y & E & Lj & Ey & Ec & R)], HS' as [(E' & R')|(j' & c' & y' & E' & Lj' & Ey' & Ec' & R')]; try congruence.
      + rewrite R, R'. eexists _, _. split; [reflexivity|]. split; [reflexivity|]. rewrite !update_length.
        do 2 (split; [auto|]). apply same_update; [congruence|auto|].
        destruct (H i) as [Bi|Gi]; [left; auto|]. right. congruence.
      + assert (j' = j) as -> by congruence. assert (y' = y) as -> by congruence.
        assert (same_good (update vb i (f_add Fo a (adj1 (opcode o) x y b)))
                  (update vb' i (f_add Fo a' (adj1 (opcode o) x y b)))) as H1.
        { apply same_update; [congruence|auto|]. destruct (H i) as [Bi|Gi]; [left; auto|]. right. congruence. }
        rewrite R, R'. eexists _, _. split; [reflexivity|]. split; [reflexivity|]. rewrite !update_length.
        do 2 (split; [auto|]). apply same_update; [rewrite !update_length; congruence|auto|].
        destruct (H1 j) as [Bj|Gj]; [left; auto|]. right. congruence. }
  cbn [bind]. apply IH; auto.
  - intros; apply W; right; auto.
  - intros; apply NA; right; auto.
  - intros o' i Ho. apply HC; right; auto.
  - intros; apply HD; right; auto.
Qed.

Lemma scatter_local ids : forall y y' arr arr' r r',
  scatter ids y arr = Ok r -> scatter ids y' arr' = Ok r' -> length arr = length arr' -> same_good arr arr' ->
  (forall k d, nth_error ids k = Some d -> bad d \/ nth_error y k = nth_error y' k) -> same_good r r'.
Proof.
  induction ids as [|d ids IH]; intros y y' arr arr' r r' E E' L H HY; cbn [scatter] in *.
  { injection E as <-. injection E' as <-. auto. }
  destruct y as [|a y]; [discriminate|]. destruct y' as [|a' y']; [discriminate|].
  unfold set in *. destruct (d <? length arr) eqn:D1; [|discriminate]. destruct (d <? length arr') eqn:D2; [|discriminate].
  cbn [bind] in *. eapply (IH y y'); [exact E|exact E'|rewrite !update_length; auto| |].
  - apply same_update; auto. destruct (HY 0 d eq_refl) as [B|Q]; [auto|]. cbn in Q. right. congruence.
  - intros k d' Hk. apply (HY (S k) d' Hk).
Qed.
End Adjoints.

Lemma ex_dec {A : Type} (P : A -> Prop) l : (forall o, In o l -> P o \/ ~ P o) ->
  (exists o, In o l /\ P o) \/ ~ (exists o, In o l /\ P o).
Proof.
  induction l as [|o l IH]; intros H.
  - right. intros (o & [] & _).
  - destruct (H o (or_introl eq_refl)) as [Po|Po]; [left; exists o; split; [left|]; auto|].
    destruct IH as [(o' & I' & P')|N]; [intros; apply H; right; auto|left; exists o'; split; [right|]; auto|].
    right. intros (o' & [<-|I'] & P'); [contradiction|]. apply N. eauto.
Qed.

Lemma uses_lt N o i : wf_op N o -> uses o i -> i < vid o /\ vid o < N.
Proof.
  intros W (NN & NC & U). destruct (wf_op_args N o W NN NC) as (Hv & i1 & E1 & L1 & H2). split; [|auto].
  destruct U as [U|U].
  - rewrite E1 in U. injection U as <-. auto.
  - destruct H2 as [(_ & _ & E)|(_ & _ & j' & E & Lj)]; [congruence|]. rewrite E in U. injection U as <-. auto.
Qed.

Lemma uses_dec o i : uses o i \/ ~ uses o i.
Proof.
  unfold uses.
  destruct (opcode_eqb (opcode o) Nop) eqn:E1; [right; intros (A & _); apply A; now apply opcode_eqb_eq|].
  destruct (opcode_eqb (opcode o) Const) eqn:E2; [right; intros (_ & A & _); apply A; now apply opcode_eqb_eq|].
  assert (forall a : option nat, a = Some i \/ a <> Some i) as HA.
  { intros [a|]; [destruct (Nat.eq_dec a i); [left; congruence|right; congruence]|right; discriminate]. }
  destruct (HA (arg1 o)) as [A|A], (HA (arg2 o)) as [B|B].
  all: try (left; repeat split; auto; intros Q; apply opcode_eqb_eq in Q; congruence).
  right. intros (_ & _ & [|]); contradiction.
Qed.

Lemma leads_dec ops N : (forall o, In o ops -> wf_op N o) -> forall i j, leads ops i j \/ ~ leads ops i j.
Proof.
  intros W i j. remember (N - i) as m eqn:Em. revert i Em.
  induction m as [m IH] using (well_founded_induction lt_wf); intros i Em.
  destruct (Nat.eq_dec i j) as [->|Nij]; [left; constructor|].
  destruct (ex_dec (fun o => uses o i /\ leads ops (vid o) j) ops) as [(o & A & B & C)|H].
  - intros o Ho. destruct (uses_dec o i) as [U|U]; [|tauto].
    destruct (uses_lt N o i (W o Ho) U) as [L1 L2].
    destruct (IH (N - vid o) ltac:(lia) (vid o) eq_refl) as [D|D]; tauto.
  - left. eapply leads_step; eauto.
  - right. intros L. inversion L as [|? o ? A B C]; subst; [congruence|]. apply H. eauto.
Qed.

Lemma scatter_total ids : forall (x arr : list F), length x = length ids ->
  (forall i, In i ids -> i < length arr) -> exists r, scatter ids x arr = Ok r /\ length r = length arr.
Proof.
  induction ids as [|d ids IH]; intros x arr L H; cbn [scatter]; [eauto|].
  destruct x as [|a x]; [discriminate|]. rewrite set_lt by (apply H; left; auto). cbn [bind].
  destruct (IH x (update arr d a)) as (r & E & Lr).
  - cbn in L. lia.
  - intros i Hi. rewrite update_length. apply H. right; auto.
  - exists r. rewrite update_length in Lr. auto.
Qed.

Theorem adjoints_connected t ybar ybar' xbar xbar' i :
  wf_tape t -> length ybar = num_deps t -> length ybar' = num_deps t ->
  tape_reverse Fo t ybar = Ok xbar -> tape_reverse Fo t ybar' = Ok xbar' -> i < num_indeps t ->
  (forall k, connected t i k -> nth_error ybar k = nth_error ybar' k) ->
  nth_error xbar i = nth_error xbar' i /\ nth_error xbar i <> None.
Proof.
  intros W L L' E E' Hi H.
  destruct (nth_error (t_indeps t) i) as [a|] eqn:Ea; [|apply nth_error_None in Ea; unfold num_indeps in Hi; lia].
  unfold tape_reverse in E, E'.
  destruct (scatter_total (t_deps t) ybar (repeat (f_zero Fo) (length (t_vals t)))) as (s & Es & Ls);
    [auto|intros; rewrite repeat_length; apply (wf_dep_range _ W); auto|].
  destruct (scatter_total (t_deps t) ybar' (repeat (f_zero Fo) (length (t_vals t)))) as (s' & Es' & Ls');
    [auto|intros; rewrite repeat_length; apply (wf_dep_range _ W); auto|].
  rewrite Es in E. rewrite Es' in E'. cbn [bind] in E, E'. rewrite repeat_length in Ls, Ls'.
  apply bind_ok in E as (r & Er & G). apply bind_ok in E' as (r' & Er' & G').
  set (bad := fun j => ~ leads (t_ops t) a j).
  pose proof (leads_dec (t_ops t) _ (wf_ops _ W)) as LD.
  assert (same_good bad s s') as HS.
  { eapply scatter_local; [exact Es|exact Es'|auto|intros j; auto|].
    intros k d Ed. destruct (LD a d) as [Y|N]; [right|left; exact N]. apply H. exists a, d. auto. }
  assert (forall o, In o (rev (t_ops t)) -> opcode o <> Abs) as NA.
  { intros o Ho EA. unfold reverse_sweep in Er.
    rewrite (reverse_sweep_abs Fo (length (t_vals t)) (rev (t_ops t)) (t_vals t) s) in Er; try discriminate; auto.
    - intros o' Ho'. apply (wf_ops _ W). now apply in_rev.
    - eauto. }
  destruct (reverse_local bad (length (t_vals t)) (rev (t_ops t)) (t_vals t) s s') as (q & q' & Eq & Eq' & Lq & Lq' & HQ); auto.
  - intros o Ho. apply (wf_ops _ W). now apply in_rev.
  - intros o j Ho U B Lj. apply B. eapply leads_right; eauto. now apply in_rev.
  - intros o Ho. destruct (LD a (vid o)); [right; intros N; apply N; auto|left; auto].
  - unfold reverse_sweep in Er, Er'. assert (q = r) as -> by congruence. assert (q' = r') as -> by congruence.
    rewrite (gather_nth_error _ _ _ _ _ G Ea), (gather_nth_error _ _ _ _ _ G' Ea). split.
    + destruct (HQ a) as [B|Q]; [|auto]. exfalso. apply B. constructor.
    + apply nth_error_Some. rewrite Lq. apply (wf_indep_range _ W). eapply nth_error_In; eauto.
Qed.
End Sparse.
