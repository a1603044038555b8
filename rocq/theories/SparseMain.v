(** Zero entries of Jacobians; NaNs reach everything that is connected with them. *)
From Coq Require Import Reals Lra List Arith ZArith Bool Lia Sorted SpecFloat.
From Verif Require Import Base Float FloatInst Operation Tape Spec TapeFacts SweepFacts AContext Methods Function Matrix MatrixFacts
  Jacobian RealInst DerivSpec DerivFacts LinearFacts FunctionFacts ReplayFacts RecordFacts ApiFacts3 JacobianFacts StraightMain SparseSpec SparseFacts.
Import ListNotations.
Local Open Scope nat_scope.

(** ** Zero entries *)
Lemma unitv_ent n i k : k < n -> nth k (unitv Rops n i) 0%R = if Nat.eqb i k then 1%R else 0%R.
Proof.
  intros H. unfold unitv. apply nth_error_nth. destruct (Nat.eqb_spec i k) as [->|Ne].
  - rewrite nth_error_update_eq; [reflexivity|rewrite repeat_length; auto].
  - rewrite nth_error_update_neq by auto. apply nth_error_repeat; auto.
Qed.

Lemma unconnected_zero (t : tape R) i k dy :
  wf_tape t -> i < num_indeps t -> k < num_deps t -> ~ connected t i k ->
  tape_forward Rops t (unitv Rops (num_indeps t) i) = Ok dy -> nth k dy 0%R = 0%R.
Proof.
  intros W Hi Hk N E.
  destruct (tangents_connected Rops t (unitv Rops (num_indeps t) i) (repeat 0%R (num_indeps t)) dy (repeat 0%R (num_deps t)) k W)
    as [EQ _]; auto.
  - apply unitv_length.
  - apply repeat_length.
  - apply forward_zero; auto.
  - intros i' C. assert (i' <> i) as Ne by (intros ->; contradiction).
    assert (i' < num_indeps t) as Hi'.
    { destruct C as (a & b & Ea & _). apply nth_error_Some. congruence. }
    rewrite nth_error_repeat by auto. rewrite (nth_error_nth' _ 0%R) by (rewrite unitv_length; auto).
    f_equal. rewrite unitv_ent; auto. destruct (Nat.eqb_spec i i'); [congruence|reflexivity].
  - rewrite nth_error_repeat in EQ by auto. apply nth_error_nth with (d := 0%R) in EQ. auto.
Qed.

Theorem jacobian_forward_zero red f x w t w' n m :
  rayon red -> fn_n f = Ok n -> fn_m f = Ok m -> length x = n ->
  fn_tape Rops f x w = Ok (t, w') -> num_deps t = m ->
  exists J, jacobian_forward Rops red f x w = Ok J /\
    forall i k, i < n -> k < m -> ~ connected t i k -> ent Rops J k i = 0%R.
Proof.
  intros HR Hn Hm Hx HT Hd.
  destruct (jacobian_forward_sweeps Rops red f x w t w' n m HR Hn Hm Hx HT Hd) as (J & EJ & _ & _ & _ & HJ).
  { intros j _. apply R_const_tangents. }
  exists J. split; auto. intros i k Hi Hk N. destruct (HJ i Hi) as (dy & Ed & Ld & He). rewrite He by auto.
  destruct (fn_tape_wf _ _ _ _ _ _ HT) as ([W _ _ _] & _).
  assert (num_indeps t = n) as Ln. { destruct (fn_tape_fresh Rops _ _ _ _ _ HT) as (_ & _ & Q & _). congruence. }
  rewrite <- Ln in Ed, Hi. rewrite <- Hd in Hk. cbn [f_zero Rops]. eapply unconnected_zero; eauto.
Qed.

Theorem jacobian_reverse_zero red (t : tape R) :
  rayon red -> wf_tape t -> no_abs t -> NoDup (t_deps t) ->
  exists J, jacobian_reverse Rops red t = Ok J /\
    forall i k, i < num_indeps t -> k < num_deps t -> ~ connected t i k -> ent Rops J k i = 0%R.
Proof.
  intros HR W NA ND. destruct (jacobian_reverse_sweeps red t HR W NA ND) as (J & EJ & _ & _ & _ & HJ).
  exists J. split; auto. intros i k Hi Hk N. destruct (HJ i Hi) as (dy & Ed & Ld & He). rewrite He by auto.
  eapply unconnected_zero; eauto.
Qed.

(** ** NaN *)
Lemma scatter_at {A} ids : forall (x arr r : list A), scatter ids x arr = Ok r ->
  length r = length arr /\ (forall j, ~ In j ids -> nth_error r j = nth_error arr j) /\
  (NoDup ids -> forall k d, nth_error ids k = Some d -> exists a, nth_error x k = Some a /\ nth_error r d = Some a).
Proof.
  induction ids as [|d ids IH]; intros x arr r E; cbn [scatter] in E.
  { injection E as <-. split; [auto|]. split; [auto|]. intros _ [|k] d Q; discriminate. }
  destruct x as [|a x]; [discriminate|]. unfold set in E. destruct (Nat.ltb_spec d (length arr)); [|discriminate].
  cbn [bind] in E. destruct (IH _ _ _ E) as (L & H1 & H2). rewrite update_length in L.
  split; [auto|]. split.
  - intros j Nj. rewrite H1 by (intros Q; apply Nj; right; auto). apply nth_error_update_neq. intros ->. apply Nj. left; auto.
  - intros ND k d' Q. inversion ND; subst. destruct k as [|k]; cbn [nth_error] in *.
    + injection Q as ->. exists a. split; [auto|]. rewrite H1 by auto. apply nth_error_update_eq. auto.
    + apply H2; auto.
Qed.

Section Nan.
Context (T : libm).
Notation O := (f64ops T).
Notation nan := S754_nan.

Lemma add_nan_l y : sf_add nan y = nan. Proof. destruct y; reflexivity. Qed.
Lemma add_nan_r x : sf_add x nan = nan. Proof. destruct x; reflexivity. Qed.
Lemma sub_nan_l y : sf_sub nan y = nan. Proof. destruct y; reflexivity. Qed.
Lemma sub_nan_r x : sf_sub x nan = nan. Proof. destruct x; reflexivity. Qed.
Lemma mul_nan_l y : sf_mul nan y = nan. Proof. destruct y; reflexivity. Qed.
Lemma mul_nan_r x : sf_mul x nan = nan. Proof. destruct x; reflexivity. Qed.
Lemma div_nan_l y : sf_div nan y = nan. Proof. destruct y; reflexivity. Qed.
Lemma div_nan_r x : sf_div x nan = nan. Proof. destruct x; reflexivity. Qed.
Hint Rewrite add_nan_l add_nan_r sub_nan_l sub_nan_r mul_nan_l mul_nan_r div_nan_l div_nan_r : nan.

Lemma value_nan (HT : libm_nan T) oc a b r : oc <> Powf ->
  zero_order_value O oc a b = Ok r -> a = nan \/ b = Some nan /\ binary_oc oc = true -> r = nan.
Proof.
  destruct HT as (H1 & H2 & H3 & H4 & H5 & H6 & H7 & H8).
  intros NP E [->|[-> B]]; destruct oc; try discriminate; try congruence;
    cbn [zero_order_value unwrap bind f64ops f_add f_sub f_mul f_div f_sin f_cos f_tan f_exp f_ln f_asin f_acos f_atan f_abs] in E;
    try (destruct b as [b|]; [|discriminate]; cbn [unwrap bind] in E); injection E as <-; autorewrite with nan; auto.
Qed.

Theorem nan_values t x t1 y i k :
  libm_nan T -> wf_tape t -> no_powf t -> tape_zero_order O t x = Ok t1 -> tape_y t1 = Ok y ->
  nth_error x i = Some nan -> connected t i k -> nth_error y k = Some nan.
Proof.
  intros HT W NP E Y Hx (a & b & Ea & Eb & L).
  assert (length x = num_indeps t) as L1.
  { unfold tape_zero_order in E. destruct (Nat.eqb_spec (length x) (num_indeps t)); [auto|discriminate]. }
  destruct (zero_sweep_values O t x W L1) as (t1' & Q1 & _ & D1 & _ & V).
  assert (t1' = t1) as -> by congruence. unfold tape_y in Y. rewrite D1 in Y.
  rewrite (gather_nth_error _ _ _ _ _ Y Eb). clear Eb.
  destruct (va_seed _ _ _ _ V i a Ea) as (c & C1 & C2). assert (c = nan) as -> by congruence.
  clear C1 Ea Hx. induction L as [j|j o j' Ho U L IH]; [auto|]. apply IH.
  destruct U as (NN & NC & U). destruct (value_inv O _ _ (va_op _ _ _ _ V _ Ho) NN NC) as (i1 & a1 & r & A1 & A2 & A3 & A4).
  rewrite A3. f_equal.
  destruct (wf_op_args _ _ (wf_ops _ W _ Ho) NN NC) as (_ & i2 & E1 & _ & [(_ & B & E2)|(B & _ & j2 & E2 & _)]).
  - rewrite E2 in A4, U. eapply value_nan; [exact HT|apply NP; exact Ho|exact A4|].
    destruct U as [U|U]; [|discriminate]. left. congruence.
  - rewrite E2 in A4, U. destruct A4 as (b1 & B1 & B2). eapply value_nan; [exact HT|apply NP; exact Ho|exact B2|].
    destruct U as [U|U]; [left; congruence|right; split; [congruence|auto]].
Qed.

Lemma eqb_nan y : SFeqb nan y = false. Proof. destruct y; reflexivity. Qed.

Lemma tangent_nan oc a b d e r :
  first_order_value O oc a b d e = Ok r -> d = nan \/ e = Some nan /\ binary_oc oc = true -> r = nan.
Proof.
  intros E H; destruct oc; try discriminate;
    cbn [first_order_value unwrap bind f64ops f_add f_sub f_mul f_div f_neg f_abs f_eqb] in E;
    try (destruct b as [b|]; [|discriminate]); try (destruct e as [e|]; [|discriminate]); cbn [unwrap bind] in E;
    injection E as <-; destruct H as [->|[H B]]; try discriminate B; try (injection H as ->);
    cbn [SFopp SFabs]; rewrite ?eqb_nan; cbn [negb]; autorewrite with nan; cbn [SFopp SFabs]; autorewrite with nan; auto.
Qed.

Theorem nan_tangents t dx dy i k :
  wf_tape t -> length dx = num_indeps t -> tape_forward O t dx = Ok dy ->
  nth_error dx i = Some nan -> connected t i k -> nth_error dy k = Some nan.
Proof.
  intros W L1 E Hx (a & b & Ea & Eb & L).
  destruct (forward_tangents O t dx W L1) as (D & d1 & V & Q1 & G).
  assert (d1 = dy) as -> by congruence.
  rewrite (gather_nth_error _ _ _ _ _ G Eb). clear Eb.
  destruct (ta_seed _ _ _ _ V i a Ea) as (c & C1 & C2). assert (c = nan) as -> by congruence.
  clear C1 Ea Hx. induction L as [j|j o j' Ho U L IH]; [auto|]. apply IH.
  destruct U as (NN & NC & U). pose proof (ta_op _ _ _ _ V _ Ho) as V1. apply tangent_eq_inv in V1; auto.
  destruct V1 as (i1 & a1 & e1 & r & A1 & A2 & A3 & A4 & A5).
  rewrite A4. f_equal.
  destruct (wf_op_args _ _ (wf_ops _ W _ Ho) NN NC) as (_ & i2 & E1 & _ & [(_ & B & E2)|(B & _ & j2 & E2 & _)]).
  - rewrite E2 in A5, U. eapply tangent_nan; [exact A5|].
    destruct U as [U|U]; [|discriminate]. left. congruence.
  - rewrite E2 in A5, U. destruct A5 as (b1 & f1 & B1 & B2 & B3). eapply tangent_nan; [exact B3|].
    destruct U as [U|U]; [left; congruence|right; split; [congruence|auto]].
Qed.

Lemma adj1_nan oc x y : adj1 O oc x y nan = nan.
Proof.
  destruct oc; cbn [adj1 first_order_value f64ops f_mul f_div f_one]; try destruct (first_order_value _ _ _ _ _ _);
    autorewrite with nan; auto.
Qed.
Lemma adj2_nan oc x y : adj2 O oc x y nan = nan.
Proof. destruct oc; cbn [adj2 f64ops f_mul f_neg SFopp]; autorewrite with nan; auto. Qed.

Notation rstep v := (fun vb o => op_first_order_reverse O o v vb).

(** One step: what is NaN stays NaN, the slots from the result on do not change, and a NaN at the
    result passes to the arguments. *)
Lemma step_nan N o (v vb r : list spec_float) : wf_op N o -> length v = N -> length vb = N ->
  op_first_order_reverse O o v vb = Ok r ->
  length r = N /\ (forall j, nth_error vb j = Some nan -> nth_error r j = Some nan) /\
  (opcode o <> Nop -> opcode o <> Const -> forall j, vid o <= j -> nth_error r j = nth_error vb j) /\
  (opcode o = Nop \/ opcode o = Const -> r = vb) /\
  (nth_error vb (vid o) = Some nan -> forall i, uses o i -> nth_error r i = Some nan).
Proof.
  intros W Lv Lb E.
  destruct (opcode_eqb (opcode o) Nop) eqn:E1.
  { apply opcode_eqb_eq in E1. unfold op_first_order_reverse in E. rewrite E1 in E. injection E as <-.
    split; [auto|]. split; [auto|]. split; [congruence|]. split; [auto|]. intros _ i (A & _). contradiction. }
  destruct (opcode_eqb (opcode o) Const) eqn:E2.
  { apply opcode_eqb_eq in E2. unfold op_first_order_reverse in E. rewrite E2 in E. injection E as <-.
    split; [auto|]. split; [auto|]. split; [congruence|]. split; [auto|]. intros _ i (_ & A & _). contradiction. }
  assert (opcode o <> Nop) as NN by (intros Q; apply opcode_eqb_eq in Q; congruence).
  assert (opcode o <> Const) as NC by (intros Q; apply opcode_eqb_eq in Q; congruence).
  assert (opcode o <> Abs) as NA.
  { intros Q. unfold op_first_order_reverse in E. rewrite Q in E. discriminate. }
  destruct (reverse_shape O N o v vb W NA NN NC Lv Lb) as (i & b & a & x & Ei & Li & Eb & Ea & Ex & HS).
  assert (vid o < N) as Hv by (destruct (wf_op_args N o W NN NC); auto).
  assert (forall l i d j, length l = N -> i < N -> nth_error l j = Some nan ->
            forall c, nth_error l i = Some c -> nth_error (update l i (f_add O c d)) j = Some nan) as HP.
  { intros l i0 d j Ll Hi Hj c Hc. destruct (Nat.eq_dec i0 j) as [<-|Ne].
    - rewrite nth_error_update_eq by lia. assert (c = nan) as -> by congruence. cbn [f64ops f_add]. now rewrite add_nan_l.
    - rewrite nth_error_update_neq by auto. auto. }
  destruct HS as [(E2' & R)|(j & c & y & E2' & Lj & Ey & Ec & R)]; rewrite R in E; injection E as <-.
  - split; [rewrite update_length; auto|]. split; [intros j Hj; apply HP; auto; lia|].
    split; [intros _ _ j Hj; rewrite nth_error_update_neq by lia; auto|].
    split; [intros [|]; contradiction|].
    intros Hn i' (_ & _ & [U|U]); [|congruence]. assert (i' = i) as -> by congruence.
    rewrite nth_error_update_eq by lia. assert (b = nan) as -> by congruence. rewrite adj1_nan. cbn [f64ops f_add]. now rewrite add_nan_r.
  - set (vb1 := update vb i (f_add O a (adj1 O (opcode o) x y b))) in *.
    assert (length vb1 = N) as L1 by (unfold vb1; rewrite update_length; auto).
    split; [rewrite update_length; auto|].
    split. { intros k Hk. apply HP; auto; [lia|]. unfold vb1. apply HP; auto. lia. }
    split. { intros _ _ k Hk. rewrite nth_error_update_neq by lia. unfold vb1. rewrite nth_error_update_neq by lia. auto. }
    split; [intros [|]; contradiction|].
    intros Hn k (_ & _ & U). assert (b = nan) as -> by congruence.
    destruct (Nat.eq_dec j k) as [<-|Ne].
    + rewrite nth_error_update_eq by (rewrite ?update_length in *; lia). rewrite adj2_nan. cbn [f64ops f_add]. now rewrite add_nan_r.
    + rewrite nth_error_update_neq by auto. destruct U as [U|U]; [|congruence]. assert (k = i) as -> by congruence.
      try unfold vb1. rewrite nth_error_update_eq by (rewrite ?update_length in *; lia). rewrite adj1_nan. cbn [f64ops f_add]. now rewrite add_nan_r.
Qed.

Lemma fold_nan N v l : forall vb r, (forall o, In o l -> wf_op N o) -> length v = N -> length vb = N ->
  foldM (rstep v) l vb = Ok r ->
  length r = N /\ (forall j, nth_error vb j = Some nan -> nth_error r j = Some nan) /\
  (forall k, (forall o, In o l -> opcode o <> Nop -> vid o <= k) -> nth_error r k = nth_error vb k).
Proof.
  induction l as [|o l IH]; intros vb r W Lv Lb E; cbn [foldM] in E.
  { injection E as <-. auto. }
  apply bind_ok in E as (s & Es & E).
  destruct (step_nan N o v vb s) as (Ls & P1 & P2 & P3 & _); auto; [apply W; left; auto|].
  destruct (IH s r) as (Lr & Q1 & Q2); auto; [intros; apply W; right; auto|].
  split; [auto|]. split; [auto|]. intros k Hk. rewrite Q2 by (intros; apply Hk; [right|]; auto).
  destruct (opcode_eqb (opcode o) Nop) eqn:E1; [apply opcode_eqb_eq in E1; rewrite P3; auto|].
  destruct (opcode_eqb (opcode o) Const) eqn:E2; [apply opcode_eqb_eq in E2; rewrite P3; auto|].
  apply P2; [| |apply Hk; [left; auto|]]; intros Q; apply opcode_eqb_eq in Q; congruence.
Qed.

Lemma def_ids_app a b : def_ids (a ++ b) = def_ids a ++ def_ids b.
Proof. unfold def_ids. now rewrite filter_app, map_app. Qed.

Lemma sorted_before p o q o' : StronglySorted lt (def_ids (p ++ o :: q)) -> opcode o <> Nop -> In o' p -> opcode o' <> Nop ->
  vid o' < vid o.
Proof.
  rewrite def_ids_app. intros H No Ho No'.
  assert (In (vid o') (def_ids p)) as I1 by (apply in_def_ids; eauto).
  assert (In (vid o) (def_ids (o :: q))) as I2 by (apply in_def_ids; exists o; split; [left|]; auto).
  revert I1 H. induction (def_ids p) as [|a l IH]; intros I1 H; [destruct I1|].
  cbn in H. inversion H as [|? ? S1 S2]; subst. destruct I1 as [->|I1]; [|auto].
  rewrite Forall_forall in S2. apply S2. apply in_or_app. auto.
Qed.

Theorem nan_adjoints t ybar xbar i k :
  wf_tape t -> NoDup (t_deps t) -> length ybar = num_deps t -> tape_reverse O t ybar = Ok xbar ->
  nth_error ybar k = Some nan -> connected t i k -> nth_error xbar i = Some nan.
Proof.
  intros W ND L1 E Hy (a & b & Ea & Eb & L). unfold tape_reverse in E.
  apply bind_ok in E as (s & Es & E). apply bind_ok in E as (r & Er & G).
  destruct (scatter_at _ _ _ _ Es) as (Ls & _ & HS). specialize (HS ND). rewrite repeat_length in Ls.
  rewrite (gather_nth_error _ _ _ _ _ G Ea).
  destruct (HS k b Eb) as (c & C1 & C2). assert (c = nan) as -> by congruence.
  unfold reverse_sweep in Er. set (N := length (t_vals t)) in *.
  assert (forall o, In o (rev (t_ops t)) -> wf_op N o) as WR by (intros o Ho; apply (wf_ops _ W); now apply in_rev).
  destruct (fold_nan N _ _ _ _ WR eq_refl Ls Er) as (Lr & P1 & _).
  apply P1 in C2. clear C1 Ea Eb G. induction L as [j|j o j' Ho U L IH]; [auto|].
  specialize (IH C2). apply in_split in Ho as (p & q & Eo).
  rewrite Eo, rev_app_distr in Er. cbn [rev] in Er. rewrite <- app_assoc in Er. cbn [app] in Er.
  rewrite foldM_app in Er. apply bind_ok in Er as (s1 & Es1 & Er). cbn [foldM] in Er. apply bind_ok in Er as (s2 & Es2 & Er).
  assert (forall o', In o' (rev q) -> wf_op N o') as W1.
  { intros o' Ho. apply (wf_ops _ W). rewrite Eo. apply in_or_app. right. right. now apply in_rev. }
  assert (forall o', In o' (rev p) -> wf_op N o') as W2.
  { intros o' Ho. apply (wf_ops _ W). rewrite Eo. apply in_or_app. left. now apply in_rev. }
  assert (wf_op N o) as Wo. { apply (wf_ops _ W). rewrite Eo. apply in_or_app. right. left. auto. }
  destruct (fold_nan N _ _ _ _ W1 eq_refl Ls Es1) as (Ls1 & _ & _).
  destruct (step_nan N o _ _ _ Wo eq_refl Ls1 Es2) as (Ls2 & _ & P2 & _ & P4).
  destruct (fold_nan N _ _ _ _ W2 eq_refl Ls2 Er) as (_ & P5 & P6).
  pose proof U as (NN & NC & _).
  assert (nth_error r (vid o) = nth_error s1 (vid o)) as EV.
  { rewrite P6; [apply P2; auto|]. intros o' Ho' No'. apply in_rev in Ho'.
    assert (vid o' < vid o); [|lia]. eapply sorted_before; eauto. rewrite <- Eo. apply (wf_sorted _ W). }
  apply P5, P4; auto. congruence.
Qed.

End Nan.

(** ** Refutations in binary64 *)

(** f(x0, x1) = (x0 + x0, x1 / x1) *)
Definition sparse_fn : func spec_float := AdvFn 2 2 (Let2 BAdd 0 0 (Let2 BDiv 1 1 (Ret [2; 3]))).
(** 2^-540 *)
Definition small64 : spec_float := S754_finite false 4503599627370496 (-592).
Definition sparse_x : list spec_float := [lit 1; small64].

Lemma leads_inv ops i j : leads ops i j -> i = j \/ exists o, In o ops /\ uses o i /\ leads ops (vid o) j.
Proof. intros L. inversion L; eauto. Qed.

Theorem sparse_binary64 T red1 red2 : rayon red1 -> rayon red2 ->
  exists t w' J K, fn_tape (f64ops T) sparse_fn sparse_x world0 = Ok (t, w') /\
    ~ connected t 0 1 /\ ~ connected t 1 0 /\
    jacobian_forward (f64ops T) red1 sparse_fn sparse_x world0 = Ok J /\ ent (f64ops T) J 1 0 = S754_nan /\
    jacobian_reverse (f64ops T) red2 t = Ok K /\ ent (f64ops T) K 0 1 = S754_nan.
Proof.
  intros H1 H2.
  assert (forall A, rayon (@concat A)) as HC by (intros A; apply rayon_exists).
  eexists _, _, _, _. split; [vm_compute; reflexivity|].
  split. { intros (a & b & A & B & L). injection A as <-. injection B as <-.
    apply leads_inv in L as [L|(o & [<-|[<-|[]]] & (_ & _ & U) & L)]; try discriminate; cbn in U, L; try (destruct U; discriminate).
    apply leads_inv in L as [L|(o & [<-|[<-|[]]] & (_ & _ & U') & L)]; try discriminate; cbn in U'; destruct U'; discriminate. }
  split. { intros (a & b & A & B & L). injection A as <-. injection B as <-.
    apply leads_inv in L as [L|(o & [<-|[<-|[]]] & (_ & _ & U) & L)]; try discriminate; cbn in U, L; try (destruct U; discriminate).
    apply leads_inv in L as [L|(o & [<-|[<-|[]]] & (_ & _ & U') & L)]; try discriminate; cbn in U'; destruct U'; discriminate. }
  rewrite (jacobian_forward_det _ red1 _ _ _ _ H1 (HC _)), (jacobian_reverse_det _ red2 _ _ H2 (HC _)).
  split; [vm_compute; reflexivity|]. split; [vm_compute; reflexivity|]. split; vm_compute; reflexivity.
Qed.

(** x^0 *)
Definition pow0_fn : func spec_float := AdvFn 1 1 (LetC (lit 0) (Let2 BPowf 0 1 (Ret [2]))).

Theorem pow0_swallows T : l_powf T S754_nan (lit 0) = lit 1 ->
  exists t w' t', fn_tape (f64ops T) pow0_fn [lit 2] world0 = Ok (t, w') /\ connected t 0 0 /\
    tape_zero_order (f64ops T) t [S754_nan] = Ok t' /\ tape_y t' = Ok [lit 1].
Proof.
  intros H. eexists _, _, _. split; [reflexivity|].
  split. { eexists _, _. split; [reflexivity|]. split; [reflexivity|].
    eapply leads_step; [right; left; reflexivity| |apply leads_refl]. repeat split; try discriminate. left. reflexivity. }
  split; [reflexivity|]. unfold tape_y. cbn. change (S754_zero false) with (lit 0). rewrite H. reflexivity.
Qed.
