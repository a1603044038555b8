(** Linearity of the forward sweep and adjointness of the reverse sweep, exact arithmetic. *)
From Coq Require Import Reals Lra List Arith ZArith Bool Lia Sorted.
From Verif Require Import Base Float Operation Tape Spec TapeFacts SweepFacts RealInst DerivSpec
  DerivFacts.
Import ListNotations.
Open Scope R_scope.

(** Partial derivatives as the reverse sweep uses them. *)
Definition part1 (oc : OpCode) (a b : R) : R :=
  match oc with
  | Add | Sub => 1
  | Mul => b
  | Div => 1 / b
  | Powf => b * Rpowf a (b - 1)
  | Nop | Const | Abs => 0
  | oc => match first_order_value Rops oc a None 1 None with Ok r => r | Panic _ => 0 end
  end.
Definition part2 (oc : OpCode) (a b : R) : R :=
  match oc with
  | Add => 1
  | Sub => -1
  | Mul => a
  | Div => - a / powerRZ b 2
  | Powf => ln a * Rpowf a b
  | _ => 0
  end.

Lemma if_mult (c d : R) : (if negb (Reqb d 0) then c * d else 0) = c * d.
Proof. destruct (Reqb d 0) eqn:E; cbn; auto. apply Reqb_true in E. subst d. ring. Qed.

Lemma fov_linear1 oc a d :
  unary_oc oc = true -> oc <> Abs ->
  first_order_value Rops oc a None d None = Ok (part1 oc a 0 * d).
Proof.
  intros U N. destruct oc; try discriminate; try congruence; cbn; f_equal; unfold Rdiv; ring.
Qed.

Lemma fov_linear2 oc a b d e :
  binary_oc oc = true ->
  first_order_value Rops oc a (Some b) d (Some e) = Ok (part1 oc a b * d + part2 oc a b * e).
Proof.
  intros U. destruct oc; try discriminate; cbn -[powerRZ]; f_equal; try ring.
  - rewrite powerRZ_2. destruct (Req_EM_T b 0) as [->|N]; [|field; auto].
    unfold Rdiv. rewrite Rmult_0_l, !Rinv_0. ring.
  - rewrite !if_mult. ring.
Qed.

(** ** Vectors *)
Lemma nth_error_nth0 (l : list R) i a : nth_error l i = Some a -> nth i l 0 = a.
Proof. apply nth_error_nth. Qed.

Lemma dot_update (x z : list R) i c :
  length x = length z -> (i < length x)%nat ->
  dot (update x i c) z = dot x z + (c - nth i x 0) * nth i z 0.
Proof.
  revert z i; induction x as [|a x IH]; intros [|b z] [|i] L Hi; cbn in *; try lia; try ring.
  rewrite IH by lia. ring.
Qed.

Lemma dot_sym x : forall z, dot x z = dot z x.
Proof. induction x as [|a x IH]; intros [|b z]; cbn; auto. rewrite IH; ring. Qed.

Lemma dot_zero x z : (forall i, nth i x 0 * nth i z 0 = 0) -> dot x z = 0.
Proof.
  revert z; induction x as [|a x IH]; intros [|b z] H; cbn; auto.
  rewrite IH; [|intros i; apply (H (S i))]. specialize (H 0%nat). cbn in H. lra.
Qed.

(** A sum over all ids equals the sum over [ids] if one factor vanishes elsewhere. *)
Lemma dot_gather ids : forall (x z gx gz : list R),
  NoDup ids -> (forall i, In i ids -> (i < length x)%nat) -> length x = length z ->
  (forall i, ~ In i ids -> nth i x 0 * nth i z 0 = 0) ->
  gather ids x = Ok gx -> gather ids z = Ok gz -> dot x z = dot gx gz.
Proof.
  induction ids as [|i ids IH]; intros x z gx gz ND HI L HZ Ex Ez.
  - cbn in Ex, Ez. injection Ex as <-. injection Ez as <-. cbn. apply dot_zero.
    intros k. apply HZ. auto.
  - unfold gather in Ex, Ez. cbn in Ex, Ez. inversion ND; subst.
    apply bind_ok in Ex as (a & Ha & Ex). apply bind_ok in Ex as (gx' & Ex & [= <-]).
    apply bind_ok in Ez as (b & Hb & Ez). apply bind_ok in Ez as (gz' & Ez & [= <-]).
    apply get_ok in Ha, Hb. cbn [dot].
    assert (i < length x)%nat as Hi by (apply HI; left; auto).
    pose proof (dot_update x z i 0 L Hi) as U.
    rewrite (nth_error_nth0 _ _ _ Ha), (nth_error_nth0 _ _ _ Hb) in U.
    rewrite <- (IH (update x i 0) z gx' gz'); auto.
    + lra.
    + intros k Hk. rewrite update_length. apply HI; right; auto.
    + rewrite update_length; auto.
    + intros k Hk. destruct (Nat.eq_dec k i) as [->|Hne].
      * rewrite (nth_error_nth0 _ _ 0 (nth_error_update_eq x i 0 Hi)). ring.
      * assert (nth k (update x i 0) 0 = nth k x 0) as ->.
        { rewrite <- !(nth_default_eq). unfold nth_default.
          rewrite nth_error_update_neq; auto. }
        apply HZ. intros [E|E]; auto.
    + rewrite <- Ex. apply gather_ext. intros k Hk. apply nth_error_update_neq.
      intros ->. contradiction.
Qed.

(** ** Reverse steps *)
Definition no_abs (t : tape R) : Prop := num_abs t = 0%nat.
Lemma no_abs_iff t : no_abs t <-> forall o, In o (t_ops t) -> opcode o <> Abs.
Proof.
  unfold no_abs, num_abs. split.
  - intros H o Ho E. apply is_abs_iff in E.
    assert (In o (filter is_abs (t_ops t))) as G by (apply filter_In; auto).
    destruct (filter is_abs (t_ops t)); [contradiction|discriminate].
  - intros H. destruct (filter is_abs (t_ops t)) as [|o l] eqn:E; auto.
    assert (In o (filter is_abs (t_ops t))) as G by (rewrite E; left; auto).
    apply filter_In in G as [G1 G2]. apply is_abs_iff in G2. destruct (H o G1 G2).
Qed.

Definition at0 (l : list R) (i : nat) : R := nth i l 0.

Lemma at0_get (l : list R) i : (i < length l)%nat -> get l i = Ok (at0 l i).
Proof.
  intros H. apply get_ok. unfold at0. destruct (nth_error l i) as [a|] eqn:E.
  - rewrite (nth_error_nth0 _ _ _ E). auto.
  - apply nth_error_None in E. lia.
Qed.

Lemma at0_update_eq l i c : (i < length l)%nat -> at0 (update l i c) i = c.
Proof. intros H. apply nth_error_nth0, nth_error_update_eq; auto. Qed.

Lemma at0_update_neq l i k c : i <> k -> at0 (update l i c) k = at0 l k.
Proof.
  intros H. unfold at0. rewrite <- !(nth_default_eq). unfold nth_default.
  rewrite nth_error_update_neq; auto.
Qed.

Lemma add_at_eq vb i c : (i < length vb)%nat ->
  add_at Rops vb i c = Ok (update vb i (at0 vb i + c)).
Proof.
  intros H. unfold add_at. rewrite (at0_get vb i H). cbn [bind].
  rewrite set_lt by auto. reflexivity.
Qed.

(** The equation the forward sweep solves for operation [o], as a linear equation. *)
Definition lin_eq (v Z : list R) (o : operation) : Prop :=
  match opcode o, arg1 o, arg2 o with
  | Nop, _, _ => True
  | Const, _, _ => at0 Z (vid o) = 0
  | oc, Some i, None => at0 Z (vid o) = part1 oc (at0 v i) 0 * at0 Z i
  | oc, Some i, Some j =>
      at0 Z (vid o) = part1 oc (at0 v i) (at0 v j) * at0 Z i + part2 oc (at0 v i) (at0 v j) * at0 Z j
  | _, None, _ => False
  end.

Lemma nth_at0 l i a : nth_error l i = Some a -> at0 l i = a.
Proof. apply nth_error_nth0. Qed.

Lemma tangent_lin N v Z o :
  wf_op N o -> opcode o <> Abs ->
  tangent_eq Rops v Z o -> lin_eq v Z o.
Proof.
  intros W NA H. unfold lin_eq.
  destruct (opcode_eqb (opcode o) Nop) eqn:E1.
  { apply opcode_eqb_eq in E1. rewrite E1. auto. }
  destruct (opcode_eqb (opcode o) Const) eqn:E2.
  { apply opcode_eqb_eq in E2. unfold tangent_eq in H. rewrite E2 in *. apply nth_at0; auto. }
  assert (opcode o <> Nop) as NN by (intros E; apply opcode_eqb_eq in E; congruence).
  assert (opcode o <> Const) as NC by (intros E; apply opcode_eqb_eq in E; congruence).
  destruct (wf_op_args N o W NN NC) as (Hv & i & Ei & Hi & H2).
  apply tangent_eq_inv in H; auto. destruct H as (i' & a & d & r & Ei' & Ha & Hd & Hr & H).
  assert (i' = i) by congruence. subst i'. rewrite Ei.
  rewrite (nth_at0 _ _ _ Ha), (nth_at0 _ _ _ Hd), (nth_at0 _ _ _ Hr).
  destruct H2 as [(U & B & E2')|(B & U & j & E2' & Hj)]; rewrite E2' in *.
  - rewrite fov_linear1 in H by auto. injection H as <-.
    destruct (opcode o); try congruence; try discriminate; reflexivity.
  - destruct H as (b & e & Hb & He & H).
    rewrite (nth_at0 _ _ _ Hb), (nth_at0 _ _ _ He).
    rewrite fov_linear2 in H; auto. injection H as <-.
    destruct (opcode o); try congruence; try discriminate; reflexivity.
Qed.

(** What one reverse step does. *)
Lemma reverse_step N o v vb :
  wf_op N o -> opcode o <> Abs -> opcode o <> Nop -> opcode o <> Const ->
  length v = N -> length vb = N ->
  exists i vb', arg1 o = Some i /\ (i < vid o)%nat /\ (vid o < N)%nat /\
    op_first_order_reverse Rops o v vb = Ok vb' /\
    match arg2 o with
    | None => vb' = update vb i (at0 vb i + at0 vb (vid o) * part1 (opcode o) (at0 v i) 0)
    | Some j => (j < vid o)%nat /\
        let vb1 := update vb i (at0 vb i + at0 vb (vid o) * part1 (opcode o) (at0 v i) (at0 v j)) in
        vb' = update vb1 j (at0 vb1 j + at0 vb (vid o) * part2 (opcode o) (at0 v i) (at0 v j))
    end.
Proof.
  intros W NA NN NC Lv Lb.
  destruct (wf_op_args N o W NN NC) as (Hv & i & Ei & Hi & H2). exists i.
  assert (forall l, length l = N -> get l i = Ok (at0 l i)) as Gi by (intros; apply at0_get; lia).
  assert (forall l, length l = N -> get l (vid o) = Ok (at0 l (vid o))) as Gv
    by (intros; apply at0_get; lia).
  unfold op_first_order_reverse. rewrite Ei.
  destruct H2 as [(U & B & E2')|(B & U & j & E2' & Hj)]; rewrite E2'.
  - exists (update vb i (at0 vb i + at0 vb (vid o) * part1 (opcode o) (at0 v i) 0)).
    split; [reflexivity|]. split; [auto|]. split; [auto|]. split; [|reflexivity].
    destruct (opcode o) eqn:Eo; try discriminate; try congruence; cbn [unwrap bind];
      rewrite (Gi v Lv); cbn [bind]; rewrite (Gv vb Lb); cbn [bind];
      cbn [first_order_value bind]; rewrite add_at_eq by lia; reflexivity.
  - assert (forall l, length l = N -> get l j = Ok (at0 l j)) as Gj by (intros; apply at0_get; lia).
    assert (forall c, at0 (update vb i c) (vid o) = at0 vb (vid o)) as Gu
      by (intros c; apply at0_update_neq; lia).
    set (vb1 := update vb i (at0 vb i + at0 vb (vid o) * part1 (opcode o) (at0 v i) (at0 v j))).
    exists (update vb1 j (at0 vb1 j + at0 vb (vid o) * part2 (opcode o) (at0 v i) (at0 v j))).
    split; [reflexivity|]. split; [auto|]. split; [auto|]. split; [|split; [auto|reflexivity]].
    subst vb1.
    destruct (opcode o) eqn:Eo; try discriminate; try congruence; cbn [unwrap bind];
      rewrite ?(Gi v Lv); cbn [bind]; rewrite ?(Gj v Lv); cbn [bind]; rewrite (Gv vb Lb);
      cbn [bind]; rewrite add_at_eq by lia; cbn [bind];
      rewrite Gv by (rewrite update_length; auto); cbn [bind]; rewrite Gu;
      (rewrite add_at_eq by (rewrite update_length; lia));
      cbn [part1 part2 f_add f_mul f_neg f_div f_one f_powi f_powf f_ln f_sub Rops];
      rewrite ?Rmult_1_r.
    + reflexivity.
    + replace (at0 vb (vid o) * -1) with (- at0 vb (vid o)) by ring. reflexivity.
    + reflexivity.
    + replace (at0 vb (vid o) / at0 v j) with (at0 vb (vid o) * (1 / at0 v j)) by (unfold Rdiv; ring).
      reflexivity.
    + rewrite <- !Rmult_assoc. reflexivity.
Qed.

(** The invariant of the reverse sweep: the pairing of the adjoints with the tangents, in which
    the ids already processed no longer count. *)
Lemma reverse_invariant N v ops : forall vb vb' Z,
  (forall o, In o ops -> wf_op N o) -> (forall o, In o ops -> opcode o <> Abs) ->
  StronglySorted lt (def_ids ops) ->
  length v = N -> length vb = N -> length Z = N ->
  (forall o, In o ops -> lin_eq v Z o) ->
  reverse_sweep Rops ops v vb = Ok vb' ->
  exists Z', dot vb' Z' = dot vb Z /\ length Z' = N /\ length vb' = N /\
    (forall k, ~ In k (def_ids ops) -> at0 Z' k = at0 Z k) /\
    (forall k, In k (def_ids ops) -> at0 Z' k = 0).
Proof.
  unfold reverse_sweep.
  induction ops as [|o ops IH] using rev_ind; intros vb vb' Z W NA SS Lv Lb LZ HE E.
  - cbn in E. injection E as <-. exists Z. repeat split; auto. intros k [].
  - rewrite rev_app_distr in E. cbn [rev app foldM] in E.
    apply bind_ok in E as (vb1 & E1 & E).
    assert (In o (ops ++ [o])) as Ho by (apply in_or_app; right; left; auto).
    assert (forall o', In o' ops -> In o' (ops ++ [o])) as Hs by (intros; apply in_or_app; auto).
    assert (StronglySorted lt (def_ids ops)) as SS'.
    { rewrite def_ids_app in SS. clear -SS. induction (def_ids ops) as [|a l IH]; [constructor|].
      cbn in SS. inversion SS as [|? ? S1 S2]; subst. constructor; auto.
      rewrite Forall_app in S2. tauto. }
    destruct (opcode_eqb (opcode o) Nop) eqn:EN.
    { apply opcode_eqb_eq in EN. unfold op_first_order_reverse in E1. rewrite EN in E1.
      injection E1 as <-.
      assert (def_ids (ops ++ [o]) = def_ids ops) as Ed.
      { rewrite def_ids_app, def_ids_cons_nop by auto. apply app_nil_r. }
      rewrite Ed. apply (IH vb vb' Z); auto. }
    assert (opcode o <> Nop) as NN by (intros G; apply opcode_eqb_eq in G; congruence).
    assert (def_ids (ops ++ [o]) = def_ids ops ++ [vid o]) as Ed.
    { rewrite def_ids_app, def_ids_cons by auto. reflexivity. }
    rewrite Ed in *.
    assert (forall k, In k (def_ids ops) -> (k < vid o)%nat) as Hlt.
    { clear -SS. induction (def_ids ops) as [|a l IH]; [intros k []|].
      cbn in SS. inversion SS as [|? ? S1 S2]; subst. intros k [<-|Hk]; auto.
      rewrite Forall_forall in S2. apply S2, in_or_app; right; left; auto. }
    destruct (opcode_eqb (opcode o) Const) eqn:EC.
    { apply opcode_eqb_eq in EC. unfold op_first_order_reverse in E1. rewrite EC in E1.
      injection E1 as <-.
      destruct (IH vb vb' Z) as (Z' & D & L1 & L2 & K1 & K2); auto.
      exists Z'. split; [auto|]. split; [auto|]. split; [auto|]. split.
      - intros k Hk. apply K1. intros G. apply Hk, in_or_app; auto.
      - intros k Hk. apply in_app_or in Hk as [Hk|[<-|[]]]; auto.
        rewrite K1; [|intros G; specialize (Hlt _ G); lia].
        specialize (HE o Ho). unfold lin_eq in HE. rewrite EC in HE. auto. }
    assert (opcode o <> Const) as NC by (intros G; apply opcode_eqb_eq in G; congruence).
    destruct (reverse_step N o v vb) as (i & vbs & Ei & Hi & Hv & Es & Hs2); auto.
    assert (vbs = vb1) by congruence. subst vbs.
    set (Z1 := update Z (vid o) 0).
    assert (length vb1 = N) as L1.
    { destruct (arg2 o); [destruct Hs2 as [_ Hs2]|]; cbv zeta in Hs2; rewrite Hs2;
        rewrite ?update_length; auto. }
    assert (dot vb1 Z1 = dot vb Z) as HD.
    { unfold Z1. rewrite dot_sym, dot_update, dot_sym by lia.
      specialize (HE o Ho). unfold lin_eq in HE. rewrite Ei in HE.
      change (nth (vid o) Z 0) with (at0 Z (vid o)).
      change (nth (vid o) vb1 0) with (at0 vb1 (vid o)).
      destruct (arg2 o) as [j|].
      - destruct Hs2 as [Hj Hs2]. cbv zeta in Hs2.
        assert (at0 vb1 (vid o) = at0 vb (vid o)) as Ev.
        { rewrite Hs2. rewrite !at0_update_neq by lia. auto. }
        rewrite Ev. rewrite Hs2.
        rewrite dot_update by (rewrite ?update_length; lia).
        rewrite dot_update by lia.
        change (nth i vb 0) with (at0 vb i). change (nth i Z 0) with (at0 Z i).
        change (nth j Z 0) with (at0 Z j).
        assert (at0 Z (vid o) = part1 (opcode o) (at0 v i) (at0 v j) * at0 Z i +
                  part2 (opcode o) (at0 v i) (at0 v j) * at0 Z j) as ->
          by (destruct (opcode o); try congruence; auto).
        unfold at0 in *.
        ring.
      - cbv zeta in Hs2.
        assert (at0 vb1 (vid o) = at0 vb (vid o)) as Ev.
        { rewrite Hs2. rewrite !at0_update_neq by lia. auto. }
        rewrite Ev. rewrite Hs2. rewrite dot_update by lia.
        change (nth i vb 0) with (at0 vb i). change (nth i Z 0) with (at0 Z i).
        assert (at0 Z (vid o) = part1 (opcode o) (at0 v i) 0 * at0 Z i) as ->
          by (destruct (opcode o); try congruence; auto).
        ring. }
    assert (forall o', In o' ops -> lin_eq v Z1 o') as HE1.
    { intros o' Ho'. specialize (HE o' (Hs _ Ho')).
      assert (opcode o' <> Nop -> (vid o' < vid o)%nat) as Hvlt.
      { intros N'. apply Hlt. apply in_def_ids. exists o'. auto. }
      pose proof (W o' (Hs _ Ho')) as Wo.
      assert (forall k, (k < vid o)%nat -> at0 Z1 k = at0 Z k) as HZ1
        by (intros k Hk; apply at0_update_neq; lia).
      destruct (opcode_eqb (opcode o') Nop) eqn:EN'.
      { apply opcode_eqb_eq in EN'. unfold lin_eq. rewrite EN'. auto. }
      assert (opcode o' <> Nop) as NN' by (intros G; apply opcode_eqb_eq in G; congruence).
      specialize (Hvlt NN').
      destruct (opcode_eqb (opcode o') Const) eqn:EC'.
      { apply opcode_eqb_eq in EC'. unfold lin_eq in *. rewrite EC' in *. rewrite HZ1; auto. }
      assert (opcode o' <> Const) as NC' by (intros G; apply opcode_eqb_eq in G; congruence).
      destruct (wf_op_args N o' Wo NN' NC') as (Hv' & i' & Ei' & Hi' & H2').
      unfold lin_eq in *. rewrite Ei' in *. rewrite (HZ1 (vid o')), (HZ1 i') by lia.
      destruct H2' as [(U & B & E2')|(B & U & j & E2' & Hj)]; rewrite E2' in *; auto.
      rewrite (HZ1 j) by lia. auto. }
    destruct (IH vb1 vb' Z1) as (Z' & D & LZ' & Lvb' & K1 & K2); auto.
    { unfold Z1. rewrite update_length; auto. }
    exists Z'. split; [congruence|]. split; [auto|]. split; [auto|]. split.
    + intros k Hk. rewrite K1; [|intros G; apply Hk, in_or_app; auto].
      apply at0_update_neq. intros <-. apply Hk, in_or_app; right; left; auto.
    + intros k Hk. apply in_app_or in Hk as [Hk|[<-|[]]]; auto.
      rewrite K1; [|intros G; specialize (Hlt _ G); lia].
      apply at0_update_eq. lia.
Qed.

(** Writing a vector to a list of positions: a position written twice keeps the last value. *)
Fixpoint last_seeds (ids : list nat) (x : list R) : list R :=
  match ids, x with
  | i :: ids', a :: x' => (if existsb (Nat.eqb i) ids' then 0 else a) :: last_seeds ids' x'
  | _, _ => []
  end.

Lemma last_seeds_nodup ids : forall x, NoDup ids -> length x = length ids -> last_seeds ids x = x.
Proof.
  induction ids as [|i ids IH]; intros [|a x] ND L; cbn in *; try discriminate; auto.
  inversion ND; subst. rewrite IH by (auto; lia).
  destruct (existsb (Nat.eqb i) ids) eqn:E; auto.
  apply existsb_exists in E as (j & Hj & Ej). apply Nat.eqb_eq in Ej. subst j. contradiction.
Qed.

Lemma scatter_dot ids : forall x arr0 arr (z gz : list R),
  length x = length ids -> (forall i, In i ids -> (i < length arr0)%nat) ->
  length arr0 = length z -> (forall i, In i ids -> at0 arr0 i = 0) ->
  scatter ids x arr0 = Ok arr -> gather ids z = Ok gz ->
  dot arr z = dot arr0 z + dot (last_seeds ids x) gz.
Proof.
  (* generalised: positions may hold something; only the last write counts *)
  assert (G : forall ids x arr0 arr (z gz : list R),
    length x = length ids -> (forall i, In i ids -> (i < length arr0)%nat) ->
    length arr0 = length z ->
    scatter ids x arr0 = Ok arr -> gather ids z = Ok gz ->
    dot arr z = dot (fold_right (fun i l => update l i 0) arr0 ids) z + dot (last_seeds ids x) gz).
  { clear. induction ids as [|i ids IH]; intros [|a x] arr0 arr z gz L HI LZ E Eg; cbn in L;
      try discriminate.
    - cbn in E. injection E as <-. cbn. ring.
    - cbn [scatter] in E. apply bind_ok in E as (arr1 & E1 & E).
      apply set_ok in E1 as [Hi ->].
      unfold gather in Eg. cbn in Eg. apply bind_ok in Eg as (b & Hb & Eg).
      apply bind_ok in Eg as (gz' & Eg & [= <-]). apply get_ok in Hb.
      rewrite (IH x (update arr0 i a) arr z gz'); auto; try (rewrite ?update_length; auto).
      2: { intros k Hk. apply HI; right; auto. }
      cbn [last_seeds dot fold_right].
      assert (forall l, length (fold_right (fun i l => update l i 0) l ids) = length l) as FL.
      { intros l. clear. induction ids; cbn; auto. rewrite update_length; auto. }
      assert (forall c, existsb (Nat.eqb i) ids = true ->
        fold_right (fun i l => update l i 0) (update arr0 i c) ids =
        fold_right (fun i l => update l i 0) arr0 ids /\
        update (fold_right (fun i l => update l i 0) arr0 ids) i 0 =
        fold_right (fun i l => update l i 0) arr0 ids) as Hin.
      { intros c. clear -HI. intros H.
        assert (forall (l : list R) i c d, update (update l i c) i d = update l i d) as U1.
        { clear. induction l; intros [|i] c d; cbn; f_equal; auto. }
        assert (forall (l : list R) i j c d, i <> j ->
          update (update l i c) j d = update (update l j d) i c) as U2.
        { clear. induction l; intros [|i] [|j] c d H; cbn; f_equal; auto. congruence. }
        clear HI. induction ids as [|j ids IH]; [discriminate|].
        cbn in H. cbn [fold_right]. destruct (Nat.eqb_spec i j) as [<-|Hne].
        - destruct (existsb (Nat.eqb i) ids) eqn:Ex.
          + destruct IH as [A B]; auto. rewrite A. rewrite !B. auto.
          + split; [|apply U1].
            assert (fold_right (fun i l => update l i 0) (update arr0 i c) ids =
                    update (fold_right (fun i l => update l i 0) arr0 ids) i c) as ->.
            { clear -Ex U2. induction ids as [|k ids IH]; auto. cbn in Ex |- *.
              destruct (Nat.eqb_spec i k); [discriminate|]. rewrite IH by auto. apply U2; auto. }
            apply U1.
        - destruct IH as [A B]; auto. rewrite A. split; auto.
          rewrite U2 by auto. rewrite B. auto. }
      assert (forall c, existsb (Nat.eqb i) ids = false ->
        fold_right (fun i l => update l i 0) (update arr0 i c) ids =
        update (fold_right (fun i l => update l i 0) arr0 ids) i c) as Hout.
      { intros c. clear. intros H.
        assert (forall (l : list R) i j c d, i <> j ->
          update (update l i c) j d = update (update l j d) i c) as U2.
        { clear. induction l; intros [|i] [|j] c d H; cbn; f_equal; auto. congruence. }
        induction ids as [|k ids IH]; auto. cbn in H |- *.
        destruct (Nat.eqb_spec i k); [discriminate|]. rewrite IH by auto. apply U2; auto. }
      destruct (existsb (Nat.eqb i) ids) eqn:Ex.
      + destruct (Hin a eq_refl) as [A B]. rewrite A, B. ring.
      + rewrite (Hout a eq_refl). rewrite !dot_update by (rewrite ?FL; lia).
        rewrite (nth_error_nth0 _ _ _ Hb). ring. }
  intros x arr0 arr z gz L HI LZ H0 E Eg. rewrite (G ids x arr0 arr z gz); auto. f_equal. f_equal.
  clear -H0. induction ids as [|i ids IH]; auto. cbn. rewrite IH by (intros; apply H0; right; auto).
  assert (forall (l : list R) i, nth i l 0 = 0 -> update l i 0 = l) as U.
  { clear. induction l; intros [|i] H; cbn in *; f_equal; auto. }
  apply U. apply (H0 i). left; auto.
Qed.

Lemma dot_repeat n : forall z, dot (repeat 0 n) z = 0.
Proof. induction n; intros [|b z]; cbn; auto. rewrite IHn. ring. Qed.

Lemma at0_repeat n i : at0 (repeat 0 n) i = 0.
Proof. unfold at0. revert i; induction n; intros [|i]; cbn; auto. Qed.

(** The reverse sweep is the adjoint of the forward sweep.  (In [R] division by zero is total,
    x / 0 = 0, and both sweeps treat it alike; for floating point infinities the statement says
    nothing.) *)
Theorem adjoint (t : tape R) ybar dx :
  wf_tape t -> no_abs t ->
  length ybar = num_deps t -> length dx = num_indeps t ->
  exists xbar dy, tape_reverse Rops t ybar = Ok xbar /\ tape_forward Rops t dx = Ok dy /\
    dot (last_seeds (t_deps t) ybar) dy = dot xbar dx.
Proof.
  intros W NA Ly Lx. pose proof (proj1 (no_abs_iff t) NA) as NA'.
  destruct (forward_tangents Rops t dx W Lx) as (D & dy & TD & EF & EG).
  assert (exists xbar, tape_reverse Rops t ybar = Ok xbar) as [xbar ER].
  { destruct (tape_reverse Rops t ybar) as [xb|p] eqn:E; eauto. exfalso.
    assert (panics (tape_reverse Rops t ybar)) as P by (exists p; auto).
    apply reverse_panics in P; auto. destruct P as [P|(o & Ho & P)]; [lia|].
    apply (NA' o Ho P). }
  exists xbar, dy. split; [auto|]. split; [auto|].
  unfold tape_reverse in ER. apply bind_ok in ER as (vb0 & E0 & ER).
  apply bind_ok in ER as (vb & E1 & ER).
  assert (forall i, In i (t_deps t) -> (i < length (t_vals t))%nat) as Hdeps
    by (apply (wf_dep_range _ W)).
  assert (length vb0 = length (t_vals t)) as L0.
  { destruct (scatter_total (t_deps t) ybar (repeat (f_zero Rops) (length (t_vals t))))
      as (vb0' & E0' & L0'); [unfold num_deps in Ly; lia| |].
    - intros i Hi. rewrite repeat_length. auto.
    - rewrite repeat_length in L0'. congruence. }
  rewrite <- (Rplus_0_l (dot (last_seeds _ _) dy)).
  rewrite <- (dot_repeat (length (t_vals t)) D).
  rewrite <- (scatter_dot (t_deps t) ybar (repeat 0 (length (t_vals t))) vb0 D dy); auto.
  2: { intros i Hi. rewrite repeat_length; auto. }
  2: { rewrite repeat_length. symmetry. apply (ta_len _ _ _ _ TD). }
  2: { intros i _. apply at0_repeat. }
  assert (forall o, In o (t_ops t) -> lin_eq (t_vals t) D o) as HE.
  { intros o Ho. eapply tangent_lin.
    - apply (wf_ops _ W o Ho).
    - auto.
    - apply (ta_op _ _ _ _ TD); auto. }
  destruct (reverse_invariant (length (t_vals t)) (t_vals t) (t_ops t) vb0 vb D)
    as (Z' & HD & LZ' & Lvb & K1 & K2); auto.
  { apply (wf_ops _ W). }
  { apply (wf_sorted _ W). }
  { apply (ta_len _ _ _ _ TD). }
  rewrite <- HD.
  (* Z' vanishes outside the independents, where it is dx *)
  assert (gather (t_indeps t) Z' = Ok dx) as GZ.
  { assert (gather (t_indeps t) D = Ok dx) as GD.
    { pose proof (ta_seed _ _ _ _ TD) as HS. clear -HS Lx. unfold num_indeps in Lx.
      revert dx Lx HS. generalize (t_indeps t) as ids. induction ids as [|i ids IH]; intros [|a dx] L HS;
        cbn in L; try discriminate; auto.
      unfold gather. cbn. destruct (HS 0%nat i eq_refl) as (a' & [= <-] & Ha).
      apply get_ok in Ha. rewrite Ha. cbn. unfold gather in IH. rewrite (IH dx); auto.
      intros k j Hk. apply (HS (S k) j Hk). }
    rewrite <- GD. apply gather_ext. intros i Hi.
    assert (i < length (t_vals t))%nat as Hr by (apply (wf_indep_range _ W); auto).
    pose proof (K1 i (wf_indep_def _ W i Hi)) as Hk.
    pose proof (at0_get Z' i ltac:(lia)) as A.
    pose proof (at0_get D i ltac:(rewrite (ta_len _ _ _ _ TD); lia)) as B.
    apply get_ok in A, B. congruence. }
  eapply dot_gather; eauto.
  - apply (wf_indep_nodup _ W).
  - intros i Hi. rewrite Lvb. apply (wf_indep_range _ W); auto.
  - congruence.
  - intros i Hi. change (nth i Z' 0) with (at0 Z' i).
    destruct (in_dec Nat.eq_dec i (def_ids (t_ops t))) as [Hd|Hd].
    + rewrite K2 by auto. ring.
    + rewrite K1 by auto. destruct (Nat.lt_ge_cases i (length (t_vals t))) as [Hr|Hr].
      * rewrite (nth_at0 _ _ _ (ta_zero _ _ _ _ TD i Hr Hi Hd)). cbn. ring.
      * unfold at0. rewrite (nth_overflow D) by (rewrite (ta_len _ _ _ _ TD); lia). ring.
Qed.

(** ** Linearity of the forward sweep *)
Definition lincomb (a b : R) (x y : list R) : list R :=
  map (fun p => a * fst p + b * snd p) (combine x y).

Lemma lincomb_nth a b x y k u v :
  nth_error x k = Some u -> nth_error y k = Some v ->
  nth_error (lincomb a b x y) k = Some (a * u + b * v).
Proof.
  unfold lincomb. revert y k; induction x as [|c x IH]; intros [|d y] [|k] H1 H2; cbn in *;
    try discriminate.
  - congruence.
  - apply IH; auto.
Qed.

Lemma lincomb_length a b x y : length x = length y -> length (lincomb a b x y) = length x.
Proof. intros H. unfold lincomb. rewrite map_length, combine_length. lia. Qed.

Lemma Ok_inj {A} (a b : A) : Ok a = Ok b -> a = b.
Proof. congruence. Qed.

Lemma fov_lincomb2 oc a b u v d1 e1 d2 e2 r1 r2 :
  binary_oc oc = true ->
  first_order_value Rops oc a (Some b) d1 (Some e1) = Ok r1 ->
  first_order_value Rops oc a (Some b) d2 (Some e2) = Ok r2 ->
  first_order_value Rops oc a (Some b) (u * d1 + v * d2) (Some (u * e1 + v * e2))
    = Ok (u * r1 + v * r2).
Proof.
  intros U. destruct oc; try discriminate; cbn -[powerRZ]; rewrite ?if_mult; intros H1 H2;
    apply Ok_inj in H1; apply Ok_inj in H2; subst r1 r2; f_equal; unfold Rdiv;
    try generalize (/ powerRZ b 2); intros; ring.
Qed.

Theorem forward_linear (t : tape R) a b dx1 dx2 :
  wf_tape t -> no_abs t ->
  length dx1 = num_indeps t -> length dx2 = num_indeps t ->
  exists dy1 dy2, tape_forward Rops t dx1 = Ok dy1 /\ tape_forward Rops t dx2 = Ok dy2 /\
    tape_forward Rops t (lincomb a b dx1 dx2) = Ok (lincomb a b dy1 dy2).
Proof.
  intros W NA L1 L2. pose proof (proj1 (no_abs_iff t) NA) as NA'.
  destruct (forward_tangents Rops t dx1 W L1) as (D1 & dy1 & T1 & F1 & G1).
  destruct (forward_tangents Rops t dx2 W L2) as (D2 & dy2 & T2 & F2 & G2).
  destruct (forward_tangents Rops t (lincomb a b dx1 dx2) W) as (D & dy & TD & FD & GD).
  { rewrite lincomb_length; congruence. }
  exists dy1, dy2. split; [auto|]. split; [auto|]. rewrite FD. f_equal.
  pose proof (ta_len _ _ _ _ T1) as LD1. pose proof (ta_len _ _ _ _ T2) as LD2.
  assert (D = lincomb a b D1 D2) as ->.
  { apply (tangents_at_unique Rops t (lincomb a b dx1 dx2)); auto.
    constructor.
    - rewrite lincomb_length; congruence.
    - intros k i Hi. destruct (ta_seed _ _ _ _ T1 k i Hi) as (u & U1 & U2).
      destruct (ta_seed _ _ _ _ T2 k i Hi) as (v & V1 & V2).
      exists (a * u + b * v). split; apply lincomb_nth; auto.
    - intros o Ho. pose proof (ta_op _ _ _ _ T1 o Ho) as O1.
      pose proof (ta_op _ _ _ _ T2 o Ho) as O2.
      pose proof (wf_ops _ W o Ho) as Wo.
      destruct (opcode_eqb (opcode o) Nop) eqn:EN.
      { apply opcode_eqb_eq in EN. unfold tangent_eq. rewrite EN. auto. }
      assert (opcode o <> Nop) as NN by (intros G; apply opcode_eqb_eq in G; congruence).
      destruct (opcode_eqb (opcode o) Const) eqn:EC.
      { apply opcode_eqb_eq in EC. unfold tangent_eq in *. rewrite EC in *.
        rewrite (lincomb_nth a b _ _ _ _ _ O1 O2). f_equal. cbn. ring. }
      assert (opcode o <> Const) as NC by (intros G; apply opcode_eqb_eq in G; congruence).
      destruct (wf_op_args _ o Wo NN NC) as (Hv & i & Ei & Hi & H2).
      apply tangent_eq_inv in O1, O2; auto.
      destruct O1 as (i1 & x & d1 & r1 & A1 & B1 & C1 & E1 & K1).
      destruct O2 as (i2 & x2 & d2 & r2 & A2 & B2 & C2 & E2 & K2).
      assert (i1 = i) by congruence. assert (i2 = i) by congruence. subst i1 i2.
      assert (x2 = x) by congruence. subst x2.
      assert (exists i0 a0 d r, arg1 o = Some i0 /\ nth_error (t_vals t) i0 = Some a0 /\
        nth_error (lincomb a b D1 D2) i0 = Some d /\
        nth_error (lincomb a b D1 D2) (vid o) = Some r /\
        match arg2 o with
        | None => first_order_value Rops (opcode o) a0 None d None = Ok r
        | Some j => exists b0 e, nth_error (t_vals t) j = Some b0 /\
            nth_error (lincomb a b D1 D2) j = Some e /\
            first_order_value Rops (opcode o) a0 (Some b0) d (Some e) = Ok r
        end) as Goal.
      { exists i, x, (a * d1 + b * d2), (a * r1 + b * r2).
        split; [auto|]. split; [auto|].
        split; [apply lincomb_nth; auto|]. split; [apply lincomb_nth; auto|].
        destruct H2 as [(U & B & E2')|(B & U & j & E2' & Hj)]; rewrite E2' in *.
        - rewrite fov_linear1 in * by auto. injection K1 as <-. injection K2 as <-. f_equal. ring.
        - destruct K1 as (y1 & e1 & Y1 & Z1 & K1), K2 as (y2 & e2 & Y2 & Z2 & K2).
          assert (y2 = y1) by congruence. subst y2.
          exists y1, (a * e1 + b * e2). split; [auto|]. split; [apply lincomb_nth; auto|].
          eapply fov_lincomb2; eauto. }
      unfold tangent_eq. destruct (opcode o); try congruence; exact Goal.
    - intros k Hk Hk1 Hk2.
      rewrite (lincomb_nth a b _ _ _ _ _ (ta_zero _ _ _ _ T1 k Hk Hk1 Hk2)
                 (ta_zero _ _ _ _ T2 k Hk Hk1 Hk2)). f_equal. cbn. ring. }
  clear -G1 G2 GD. revert dy dy1 dy2 G1 G2 GD. generalize (t_deps t) as ids.
  induction ids as [|i ids IH]; intros dy dy1 dy2 G1 G2 GD; unfold gather in *; cbn in *.
  - injection G1 as <-. injection G2 as <-. injection GD as <-. reflexivity.
  - apply bind_ok in G1 as (u & U & G1). apply bind_ok in G1 as (l1 & G1 & [= <-]).
    apply bind_ok in G2 as (v & V & G2). apply bind_ok in G2 as (l2 & G2 & [= <-]).
    apply bind_ok in GD as (w & Wd & GD). apply bind_ok in GD as (l & GD & [= <-]).
    apply get_ok in U, V, Wd. pose proof (lincomb_nth a b _ _ _ _ _ U V) as E.
    assert (w = a * u + b * v) as -> by congruence.
    rewrite (IH l l1 l2); auto.
Qed.

Corollary adjoint_nodup (t : tape R) ybar dx :
  wf_tape t -> no_abs t -> NoDup (t_deps t) ->
  length ybar = num_deps t -> length dx = num_indeps t ->
  exists xbar dy, tape_reverse Rops t ybar = Ok xbar /\ tape_forward Rops t dx = Ok dy /\
    dot ybar dy = dot xbar dx.
Proof.
  intros W NA ND Ly Lx. destruct (adjoint t ybar dx W NA Ly Lx) as (xb & dy & E1 & E2 & E3).
  exists xb, dy. rewrite last_seeds_nodup in E3 by auto. auto.
Qed.
