(** Forward sweeps of arbitrary tapes are derivatives of the replay. *)
From Coq Require Import Reals Lra List Arith ZArith Bool Lia.
From Verif Require Import Base Float Operation Tape AContext Methods Function Spec Param TapeFacts
  Instances RealInst Approx DerivSpec DerivFacts DerivFacts2 LinearFacts Matrix MatrixFacts Jacobian JacobianFacts.
Import ListNotations.
Open Scope R_scope.

(** The id holds a constant of the tape. *)
Definition constant_id (t : tape R) (j : nat) : bool :=
  existsb (fun o => opcode_eqb (opcode o) Const && (vid o =? j)%nat) (t_ops t).

(** Every operation of the tape is inside its open domain at the values the tape holds. *)
Definition in_domains (t : tape R) : Prop :=
  forall o i a, In o (t_ops t) -> arg1 o = Some i -> nth_error (t_vals t) i = Some a ->
  in_domain (opcode o) a
    (match arg2 o with Some j => nth_error (t_vals t) j | None => None end)
    (match arg2 o with Some j => constant_id t j | None => true end).

(** The outputs of the tape when it is replayed at [x]. *)
Definition replay_y (t : tape R) (x : list R) : list R :=
  match tape_zero_order Rops t x with
  | Ok t' => match tape_y t' with Ok y => y | Panic _ => [] end
  | Panic _ => []
  end.

Lemma gather_nth (arr : list R) : forall ids y, gather ids arr = Ok y ->
  length y = length ids /\
  forall k i, nth_error ids k = Some i -> nth k y 0 = nth i arr 0.
Proof.
  unfold gather. induction ids as [|i ids IH]; cbn; intros y E.
  - injection E as <-. split; auto. intros [|k] i; discriminate.
  - unfold get in E. destruct (nth_error arr i) as [a|] eqn:Ea; cbn in E; [|discriminate].
    destruct (mapM _ ids) as [y'|] eqn:Ey; cbn in E; [|discriminate]. injection E as <-.
    destruct (IH y' eq_refl) as [L H]. split; [cbn; auto|].
    intros [|k] j; cbn.
    + intros [= <-]. symmetry. now apply nth_error_nth.
    + apply H.
Qed.

Lemma vadd_nth x h k : length h = length x -> (k < length x)%nat ->
  nth_error (vadd x h) k = Some (nth k x 0 + nth k h 0).
Proof.
  revert h k. induction x as [|a x IH]; intros [|b h] k; cbn; intros L Hk; try lia.
  destruct k as [|k]; cbn; [reflexivity|]. apply IH; lia.
Qed.

Section OneTape.
Context (t t0 : tape R) (x : list R).
Hypothesis W : wf_tape t.
Hypothesis Lx : length x = num_indeps t.
Hypothesis Hx : tape_zero_order Rops t x = Ok t0.
Hypothesis HD : in_domains t0.

Let n := num_indeps t.
Definition pad (h : list R) : list R := map (fun k => nth k h 0) (seq 0 n).
Definition arrh (h : list R) : list R :=
  match tape_zero_order Rops t (vadd x (pad h)) with Ok t' => t_vals t' | Panic _ => [] end.

Lemma pad_len h : length (pad h) = n.
Proof. unfold pad. now rewrite map_length, seq_length. Qed.
Lemma pad_nth h k : (k < n)%nat -> nth k (pad h) 0 = nth k h 0.
Proof.
  intros H. unfold pad. rewrite (nth_indep _ 0 (nth 0 h 0)) by (rewrite map_length, seq_length; auto).
  rewrite (map_nth (fun k => nth k h 0) (seq 0 n) 0%nat k), seq_nth by auto. reflexivity.
Qed.
Lemma pad_id h : length h = n -> pad h = h.
Proof.
  intros H. apply (nth_ext _ _ 0 0); [rewrite pad_len; auto|]. rewrite pad_len.
  intros k Hk. apply pad_nth; auto.
Qed.

Lemma arrh_at h : values_at Rops t (vadd x (pad h)) (arrh h).
Proof.
  unfold arrh. destruct (zero_sweep_values Rops t (vadd x (pad h)) W) as (t' & E & _ & _ & _ & V).
  - rewrite vadd_length; [auto|]. rewrite pad_len. auto.
  - rewrite E. exact V.
Qed.
Lemma base_at : values_at Rops t x (t_vals t0) /\ t_ops t0 = t_ops t /\ t_indeps t0 = t_indeps t /\ t_deps t0 = t_deps t.
Proof.
  destruct (zero_sweep_values Rops t x W Lx) as (t' & E & A & B & C & V).
  rewrite Hx in E. injection E as <-. auto.
Qed.
Lemma W0 : wf_tape t0.
Proof.
  destruct base_at as (V & A & B & C). destruct W. pose proof (va_len _ _ _ _ V) as L.
  constructor; rewrite ?A, ?B, ?C, ?L; auto.
Qed.

Context (darr : list R -> list R).
Hypothesis TA : forall h, tangents_at Rops t0 (pad h) (darr h).

Definition V (k : nat) : V3 (T := list R) :=
  (nth k (t_vals t0) 0, fun h => nth k (arrh h) 0, fun h => nth k (darr h) 0).

Lemma len0 : length (t_vals t0) = length (t_vals t).
Proof. exact (va_len _ _ _ _ (proj1 base_at)). Qed.

Lemma still_const k : (k < length (t_vals t))%nat -> ~ In k (t_indeps t) ->
  (forall o, In o (t_ops t) -> vid o = k -> opcode o = Const \/ opcode o = Nop) -> still (V k).
Proof.
  intros Hk Hi Hc h. destruct base_at as (V0 & A & B & C). unfold V, v3p, v3a, v3d. cbn. split.
  - pose proof (va_keep _ _ _ _ (arrh_at h) k Hk Hi Hc) as E1.
    pose proof (va_keep _ _ _ _ V0 k Hk Hi Hc) as E2. rewrite <- E2 in E1.
    destruct (nth_error (t_vals t0) k) as [a|] eqn:E.
    + rewrite (nth_error_nth _ _ 0 E), (nth_error_nth _ _ 0 E1). reflexivity.
    + apply nth_error_None in E. rewrite len0 in E. lia.
  - destruct (in_dec Nat.eq_dec k (def_ids (t_ops t))) as [I|I].
    + apply in_def_ids in I as (o & Io & No & Ev). destruct (Hc o Io Ev) as [Ec|Ec]; [|congruence].
      pose proof (ta_op _ _ _ _ (TA h) o) as T. rewrite A in T. specialize (T Io).
      unfold tangent_eq in T. rewrite Ec, Ev in T. now apply nth_error_nth.
    + apply nth_error_nth. apply (ta_zero _ _ _ _ (TA h)); rewrite ?A, ?B, ?len0; auto.
Qed.

Lemma const_ids j : constant_id t0 j = true -> (j < length (t_vals t))%nat -> ~ In j (t_indeps t) ->
  forall o, In o (t_ops t) -> vid o = j -> opcode o = Const \/ opcode o = Nop.
Proof.
  intros H Hj Hi o Io Ev. destruct base_at as (V0 & A & B & C).
  unfold constant_id in H. rewrite A in H. apply existsb_exists in H as (c & Ic & Hc).
  apply andb_prop in Hc as [Hc1 Hc2]. apply Nat.eqb_eq in Hc2.
  assert (opcode c = Const) as Ec by (destruct (opcode c); cbn in Hc1; congruence).
  destruct (opcode_eqb (opcode o) Nop) eqn:Eo; [right; destruct (opcode o); cbn in Eo; congruence|].
  left. rewrite (sorted_inj (t_ops t) o c); auto; try congruence.
  - exact (wf_sorted t W).
  - intros E. rewrite E in Eo. discriminate.
Qed.

Lemma nth_some (l : list R) k a : nth_error l k = Some a -> nth k l 0 = a.
Proof. apply nth_error_nth. Qed.

Lemma op_case o : In o (t_ops t) -> opcode o <> Nop -> opcode o <> Const ->
  (forall i, (i < vid o)%nat -> good nrm1 (V i)) -> good nrm1 (V (vid o)).
Proof.
  intros Io N1 N2 IH. destruct base_at as (V0 & A & B & C).
  pose proof (wf_ops t W o Io) as Wo.
  assert (exists i, arg1 o = Some i /\ (i < vid o)%nat /\ (vid o < length (t_vals t))%nat /\
    match arg2 o with Some j => (j < vid o)%nat /\ binary_oc (opcode o) = true
                    | None => unary_oc (opcode o) = true end) as (i & Ei & Li & Lk & Hj).
  { unfold wf_op in Wo. destruct (opcode o) eqn:Eo; try congruence; destruct Wo as (W1 & (i & E1 & E2) & W3);
      exists i; repeat split; auto; cbn in W3;
      first [destruct W3 as (j & -> & ?); split; [auto|reflexivity] | rewrite W3; reflexivity]. }
  set (y := match arg2 o with Some j => Some (V j) | None => None end).
  assert (forall arr, value_eq Rops arr o -> exists r,
    zero_order_value Rops (opcode o) (nth i arr 0) (match arg2 o with Some j => Some (nth j arr 0) | None => None end) = Ok r /\
    nth (vid o) arr 0 = r) as HV.
  { intros arr H. unfold value_eq in H.
    destruct (opcode o); try congruence;
      destruct H as (i' & a & r & E1 & E2 & E3 & E4);
      rewrite Ei in E1; injection E1 as <-; rewrite (nth_some _ _ _ E2), (nth_some _ _ _ E3);
      exists r; (split; [|reflexivity]);
      destruct (arg2 o) as [j|]; auto; destruct E4 as (b & E5 & E6); rewrite (nth_some _ _ _ E5); auto. }
  assert (forall h, exists r, first_order_value Rops (opcode o) (nth i (t_vals t0) 0)
    (match arg2 o with Some j => Some (nth j (t_vals t0) 0) | None => None end)
    (nth i (darr h) 0) (match arg2 o with Some j => Some (nth j (darr h) 0) | None => None end) = Ok r /\
    nth (vid o) (darr h) 0 = r) as HT.
  { intros h. pose proof (ta_op _ _ _ _ (TA h) o) as H. rewrite A in H. specialize (H Io).
    unfold tangent_eq in H.
    destruct (opcode o); try congruence;
      destruct H as (i' & a & d & r & E1 & E2 & E3 & E3' & E4);
      rewrite Ei in E1; injection E1 as <-; rewrite (nth_some _ _ _ E2), (nth_some _ _ _ E3), (nth_some _ _ _ E3');
      exists r; (split; [|reflexivity]);
      destruct (arg2 o) as [j|]; auto; destruct E4 as (b & e & E5 & E5' & E6);
      rewrite (nth_some _ _ _ E5), (nth_some _ _ _ E5'); auto. }
  destruct (HV _ (va_op _ _ _ _ V0 o Io)) as (r0 & Er & Ek).
  assert (option_map v3a y = match arg2 o with Some j => Some (nth j (t_vals t0) 0) | None => None end) as Ey.
  { unfold y. destruct (arg2 o); reflexivity. }
  assert (nth_error (t_vals t0) i = Some (nth i (t_vals t0) 0)) as Ni by (apply nth_error_nth'; rewrite len0; lia).
  assert (option_map v3a y = match arg2 o with Some j => nth_error (t_vals t0) j | None => None end) as Ey'.
  { rewrite Ey. destruct (arg2 o) as [j|]; auto. symmetry. apply nth_error_nth'. rewrite len0; lia. }
  assert (good nrm1 (r0, fun h => zv (opcode o) (v3p (V i) h) (option_map (fun z => v3p z h) y),
                   fun h => fv (opcode o) (v3a (V i)) (option_map v3a y) (v3d (V i) h)
                              (option_map (fun z => v3d z h) y))) as G.
  { apply (op_good nrm1 nrm1_pos (opcode o) (V i) y _ tt).
    - unfold y. destruct (arg2 o) as [j|]; cbn; tauto.
    - pose proof (HD o i (nth i (t_vals t0) 0)) as D. rewrite A in D. specialize (D Io Ei Ni).
      rewrite <- Ey' in D. change (nth i (t_vals t0) 0) with (v3a (V i)) in D.
      unfold y in *. destruct (arg2 o) as [j|]; cbn [option_map] in *.
      + destruct (constant_id t0 j) eqn:Ec; [right|left; exact D]. split; [exact D|].
        intros z [= <-].
        destruct (in_dec Nat.eq_dec j (t_indeps t)) as [Ij|Ij].
        { exfalso. unfold constant_id in Ec. rewrite A in Ec. apply existsb_exists in Ec as (c & Ic & Hc).
          apply andb_prop in Hc as [Hc1 Hc2]. apply Nat.eqb_eq in Hc2.
          apply (wf_indep_def t W j Ij). apply in_def_ids. exists c. split; [auto|]. split; [|auto].
          intros E. rewrite E in Hc1. discriminate. }
        apply still_const; auto; [lia|]. apply const_ids; auto; lia.
      + right. split; [exact D|]. discriminate.
    - apply IH; auto.
    - intros z. unfold y. destruct (arg2 o) as [j|]; [|discriminate]. intros [= <-]. apply IH; lia.
    - unfold c_fop. rewrite Ey. change (v3a (V i)) with (nth i (t_vals t0) 0). rewrite Er. reflexivity. }
  unfold good in *. change (v3a (V (vid o))) with (nth (vid o) (t_vals t0) 0). rewrite Ek.
  eapply approx_ext; [| |exact G]; apply ev_all; intros h.
  - destruct (HV _ (va_op _ _ _ _ (arrh_at h) o Io)) as (r & E1 & E2).
    change (v3p (V (vid o)) h) with (nth (vid o) (arrh h) 0). rewrite E2.
    unfold v3p at 1, zv. cbn [fst snd]. change (v3p (V i) h) with (nth i (arrh h) 0).
    assert (option_map (fun z => v3p z h) y = match arg2 o with Some j => Some (nth j (arrh h) 0) | None => None end) as ->
      by (unfold y; destruct (arg2 o); reflexivity).
    rewrite E1. reflexivity.
  - destruct (HT h) as (r & E1 & E2).
    change (v3d (V (vid o)) h) with (nth (vid o) (darr h) 0). rewrite E2.
    unfold v3d at 1, fv. cbn [fst snd]. rewrite Ey. change (v3a (V i)) with (nth i (t_vals t0) 0).
    change (v3d (V i) h) with (nth i (darr h) 0).
    assert (option_map (fun z => v3d z h) y = match arg2 o with Some j => Some (nth j (darr h) 0) | None => None end) as ->
      by (unfold y; destruct (arg2 o); reflexivity).
    rewrite E1. reflexivity.
Qed.

Lemma all_good k : (k < length (t_vals t))%nat -> good nrm1 (V k).
Proof.
  induction k as [k IH] using (well_founded_induction lt_wf). intros Hk.
  destruct base_at as (V0 & A & B & C).
  destruct (in_dec Nat.eq_dec k (t_indeps t)) as [Hi|Hi].
  - apply In_nth_error in Hi as [j Hj].
    assert (j < n)%nat as Lj by (apply nth_error_Some; congruence).
    destruct (va_seed _ _ _ _ V0 j k Hj) as (a & Ea & Eb).
    unfold good. change (v3a (V k)) with (nth k (t_vals t0) 0). rewrite (nth_some _ _ _ Eb).
    pose proof (fam_good 0 x) as FG. rewrite Forall_forall in FG.
    assert (forall l m i, nth_error l i = Some a ->
      nth_error (fam m l) i = Some (a, fun h => a + nth (m + i) h 0, fun h => nth (m + i) h 0)) as NF.
    { clear. induction l as [|b l IH]; intros m [|i]; cbn; try discriminate.
      - intros [= ->]. rewrite Nat.add_0_r. reflexivity.
      - intros H. rewrite (IH (S m) i H). rewrite <- plus_n_Sm. reflexivity. }
    specialize (FG _ (nth_error_In _ _ (NF x 0%nat j Ea))). unfold good in FG. cbn [v3a v3p v3d fst snd] in FG.
    eapply approx_ext; [| |exact FG]; apply ev_all; intros h; cbn [Nat.add].
    + destruct (va_seed _ _ _ _ (arrh_at h) j k Hj) as (b & E1 & E2).
      change (v3p (V k) h) with (nth k (arrh h) 0). rewrite (nth_some _ _ _ E2).
      rewrite vadd_nth in E1 by (rewrite ?pad_len; unfold n in *; lia). injection E1 as <-.
      rewrite (nth_some _ _ _ Ea), pad_nth by auto. reflexivity.
    + pose proof (ta_seed _ _ _ _ (TA h)) as TS. rewrite B in TS.
      destruct (TS j k Hj) as (b & E1 & E2).
      change (v3d (V k) h) with (nth k (darr h) 0). rewrite (nth_some _ _ _ E2).
      rewrite <- (nth_some _ _ _ E1), pad_nth by auto. reflexivity.
  - destruct (in_dec Nat.eq_dec k (def_ids (t_ops t))) as [I|I].
    + apply in_def_ids in I as (o & Io & No & Ev).
      destruct (opcode_eqb (opcode o) Const) eqn:Ec.
      * apply still_good; [apply nrm1_pos|]. apply still_const; auto. apply const_ids; auto.
        unfold constant_id. rewrite A. apply existsb_exists. exists o. rewrite Ec, Ev, Nat.eqb_refl. auto.
      * rewrite <- Ev. apply op_case; auto.
        -- intros E. rewrite E in Ec. discriminate.
        -- intros i Li. apply IH; lia.
    + apply still_good; [apply nrm1_pos|]. apply still_const; auto. intros o Io Ev. right.
      destruct (opcode_eqb (opcode o) Nop) eqn:E; [destruct (opcode o); cbn in E; congruence|].
      exfalso. apply I. apply in_def_ids. exists o. split; [auto|]. split; [|auto]. intros E'. rewrite E' in E. discriminate.
Qed.
End OneTape.

(** The forward sweep approximates the increment of the replay to first order. *)
Theorem tape_linearisation (t t0 : tape R) x :
  wf_tape t -> length x = num_indeps t -> tape_zero_order Rops t x = Ok t0 -> in_domains t0 ->
  forall e, 0 < e -> exists d, 0 < d /\ forall h, length h = length x -> nrm1 h < d ->
    exists dy, tape_forward Rops t0 h = Ok dy /\ length dy = num_deps t /\
      length (replay_y t x) = num_deps t /\ length (replay_y t (vadd x h)) = num_deps t /\
      forall k, (k < num_deps t)%nat ->
        Rabs (nth k (replay_y t (vadd x h)) 0 - nth k (replay_y t x) 0 - nth k dy 0) <= e * nrm1 h.
Proof.
  intros W Lx Hx HD e He.
  pose proof (W0 t t0 x W Lx Hx) as W0.
  destruct (base_at t t0 x W Lx Hx) as (V0 & A & B & C).
  assert (num_indeps t0 = num_indeps t) as N0 by (unfold num_indeps; now rewrite B).
  set (ta := mkTape (t_indeps t0) (seq 0 (length (t_vals t0))) (t_ops t0) (t_vals t0)).
  assert (wf_tape ta) as Wa.
  { destruct W0. constructor; auto. unfold ta. cbn. intros d Hd. apply in_seq in Hd. lia. }
  set (darr := fun h => match tape_forward Rops ta (pad t h) with Ok d => d | Panic _ => [] end).
  assert (forall h, tangents_at Rops t0 (pad t h) (darr h) /\
     tape_forward Rops t0 (pad t h) = gather (t_deps t0) (darr h) /\ 
     exists dy, gather (t_deps t0) (darr h) = Ok dy) as TF.
  { intros h. assert (length (pad t h) = num_indeps t0) as L by (rewrite pad_len; auto).
    destruct (forward_tangents Rops t0 (pad t h) W0 L) as (d & dy & H1 & H2 & H3).
    destruct (forward_tangents Rops ta (pad t h) Wa L) as (d' & dy' & H1' & H2' & H3').
    assert (tangents_at Rops t0 (pad t h) d') as H4 by (destruct H1'; constructor; auto).
    pose proof (tangents_at_unique Rops t0 (pad t h) d d' W0 H1 H4) as <-.
    unfold darr. rewrite H2'.
    assert (dy' = d) as ->.
    { cbn [t_deps ta] in H3'. destruct (gather_nth _ _ _ H3') as [L1 G1]. rewrite seq_length in L1.
      pose proof (ta_len _ _ _ _ H1) as L2.
      apply (nth_ext _ _ 0 0); [congruence|]. intros k Hk. apply G1.
      rewrite (nth_error_nth' _ 0%nat) by (rewrite seq_length; lia). rewrite seq_nth by lia. reflexivity. }
    split; [auto|]. split; [congruence|eauto]. }
  assert (forall h, tangents_at Rops t0 (pad t h) (darr h)) as TA by (intros h; apply TF).
  pose proof (all_good t t0 x W Lx Hx HD darr TA) as G.
  set (zs := map (V t t0 x darr) (t_deps t)).
  destruct (vec_approx zs e He) as (d & Hd & HA).
  { unfold zs. rewrite Forall_forall. intros z Hz. apply in_map_iff in Hz as (k & <- & Hk).
    apply G. apply (wf_dep_range t W k Hk). }
  exists d. split; [auto|]. intros h Lh Hh.
  destruct (TF h) as (_ & EF & dy & Edy).
  rewrite (pad_id t h) in EF by congruence. rewrite Edy in EF. exists dy. split; [auto|].
  rewrite C in Edy. destruct (gather_nth _ _ _ Edy) as [L1 G1]. split; [unfold num_deps; auto|].
  assert (forall x', length x' = num_indeps t -> exists arr y, values_at Rops t x' arr /\
    (forall t', tape_zero_order Rops t x' = Ok t' -> arr = t_vals t') /\ replay_y t x' = y /\ length y = num_deps t /\
    forall k i, nth_error (t_deps t) k = Some i -> nth k y 0 = nth i arr 0) as RY.
  { intros x' L. destruct (zero_sweep_values Rops t x' W L) as (t' & E & A' & B' & C' & V').
    exists (t_vals t').
    assert (exists y, gather (t_deps t) (t_vals t') = Ok y) as [y Ey].
    { apply gather_ok. intros i Hi. rewrite (va_len _ _ _ _ V'). apply (wf_dep_range t W i Hi). }
    exists y. split; [auto|]. split; [intros t'' E''; congruence|].
    split; [unfold replay_y; rewrite E; unfold tape_y; rewrite B', Ey; auto|].
    apply gather_nth; auto. }
  destruct (RY x Lx) as (arr & y & _ & E1 & -> & Ly & Hy).
  destruct (RY (vadd x h)) as (arr' & y' & V' & E1' & -> & Ly' & Hy'); [rewrite vadd_length; congruence|].
  split; [auto|]. split; [auto|]. intros k Hk.
  destruct (nth_error (t_deps t) k) as [i|] eqn:Ei; [|apply nth_error_None in Ei; unfold num_deps in Hk; lia].
  rewrite (Hy k i Ei), (Hy' k i Ei), (G1 k i Ei).
  specialize (HA h Hh (V t t0 x darr i)).
  unfold V, v3p, v3a, v3d in HA. cbn in HA.
  rewrite (E1 t0 Hx).
  assert (arrh t x h = arr') as <-.
  { eapply (values_at_unique Rops t (vadd x h)); eauto. 
    pose proof (arrh_at t x W Lx h) as AA. rewrite (pad_id t h) in AA by congruence. exact AA. }
  apply HA. unfold zs. change (In (V t t0 x darr i) (map (V t t0 x darr) (t_deps t))). apply in_map. eapply nth_error_In; eauto.
Qed.

Lemma replay_len (t : tape R) x : wf_tape t -> length x = num_indeps t -> length (replay_y t x) = num_deps t.
Proof.
  intros W L. destruct (zero_sweep_values Rops t x W L) as (t' & E & A' & B' & C' & V').
  destruct (gather_ok (t_deps t) (t_vals t')) as [y Ey].
  { intros i Hi. rewrite (va_len _ _ _ _ V'). apply (wf_dep_range t W i Hi). }
  unfold replay_y. rewrite E. unfold tape_y. rewrite B', Ey. apply (gather_nth _ _ _ Ey).
Qed.

(** Without abs it is the derivative. *)
Theorem tape_derivative (t t0 : tape R) x :
  wf_tape t -> no_abs t -> length x = num_indeps t -> tape_zero_order Rops t x = Ok t0 -> in_domains t0 ->
  forall dx, length dx = length x ->
  exists dy, tape_forward Rops t0 dx = Ok dy /\ length dy = num_deps t /\
    forall k, (k < num_deps t)%nat ->
      derivable_pt_lim (fun s => nth k (replay_y t (vadd x (vscal s dx))) 0) 0 (nth k dy 0).
Proof.
  intros W NA Lx Hx HD dx L.
  pose proof (tape_linearisation t t0 x W Lx Hx HD) as HL.
  pose proof (W0 t t0 x W Lx Hx) as W0.
  destruct (base_at t t0 x W Lx Hx) as (V0 & A & B & C).
  assert (no_abs t0) as NA0 by (unfold no_abs, num_abs in *; rewrite A; auto).
  assert (num_indeps t0 = length x) as Ln by (unfold num_indeps in *; rewrite B; auto).
  destruct (forward_linear t0 0 0 dx dx W0 NA0) as (dy & _ & Fd & _ & _); try congruence.
  assert (forall s, tape_forward Rops t0 (vscal s dx) = Ok (vscal s dy)) as FS.
  { intros s. destruct (forward_linear t0 s 0 dx dx W0 NA0) as (d1 & d2 & F1 & F2 & F3);
      try congruence.
    rewrite !lincomb_scal in F3. assert (d1 = dy) by congruence. assert (d2 = dy) by congruence.
    subst. rewrite lincomb_scal in F3. auto. }
  assert (length dy = num_deps t) as Ld.
  { destruct (HL 1 Rlt_0_1) as (d & Hd & H). destruct (H (vscal 0 dx)) as (dy1 & F & L1 & _).
    - rewrite vscal_length; auto.
    - rewrite nrm1_scal, Rabs_R0. lra.
    - rewrite FS in F. injection F as <-. rewrite vscal_length in L1. auto. }
  exists dy. split; [auto|]. split; [congruence|].
  assert (forall B, 0 < B -> exists d, 0 < d /\ forall s, Rabs s < d -> nrm1 (vscal s dx) < B) as HN.
  { intros B' HB'. exists (B' / (nrm1 dx + 1)). pose proof (nrm1_pos dx).
    split; [apply Rdiv_lt_0_compat; lra|]. intros s Hs. rewrite nrm1_scal.
    apply Rle_lt_trans with (Rabs s * (nrm1 dx + 1)).
    - apply Rmult_le_compat_l; [apply Rabs_pos|lra].
    - apply Rmult_lt_reg_r with (/ (nrm1 dx + 1)); [apply Rinv_0_lt_compat; lra|].
      rewrite Rmult_assoc, Rinv_r by lra. rewrite Rmult_1_r. exact Hs. }
  intros k Hk e He. set (N := nrm1 dx). pose proof (nrm1_pos dx) as HNp. fold N in HNp.
  destruct (HL (e / (2 * (N + 1)))) as (B' & HB' & H); [apply Rdiv_lt_0_compat; lra|].
  destruct (HN B' HB') as (d & Hd & Hs). exists (mkposreal d Hd). intros s Hs0 Hsd. cbn in Hsd.
  rewrite Rplus_0_l. rewrite vscal_0 by auto.
  destruct (H (vscal s dx)) as (dy1 & F & _ & _ & _ & Hk2); [rewrite vscal_length; auto|auto|].
  rewrite FS in F. injection F as <-. specialize (Hk2 k Hk).
  assert (nth k (vscal s dy) 0 = s * nth k dy 0) as En.
  { unfold vscal. rewrite <- (Rmult_0_r s) at 1. apply (map_nth (Rmult s)). }
  rewrite En, nrm1_scal in Hk2. fold N in Hk2.
  set (y1 := replay_y t (vadd x (vscal s dx))) in *. set (y := replay_y t x) in *.
  replace ((nth k y1 0 - nth k y 0) / s - nth k dy 0)
    with ((nth k y1 0 - nth k y 0 - s * nth k dy 0) / s) by (field; auto).
  unfold Rdiv at 1. rewrite Rabs_mult, Rabs_inv by auto.
  assert (0 < Rabs s) as Hsp by (apply Rabs_pos_lt; auto).
  apply Rmult_lt_reg_r with (Rabs s); auto. rewrite Rmult_assoc, Rinv_l, Rmult_1_r by lra.
  eapply Rle_lt_trans; [apply Hk2|].
  replace (e / (2 * (N + 1)) * (Rabs s * N)) with (Rabs s * e * (N / (2 * (N + 1)))) by (field; lra).
  rewrite (Rmult_comm e). rewrite <- (Rmult_1_r (Rabs s * e)) at 2.
  apply Rmult_lt_compat_l; [apply Rmult_lt_0_compat; auto|].
  apply Rmult_lt_reg_r with (2 * (N + 1)); [lra|]. unfold Rdiv. rewrite Rmult_assoc, Rinv_l by lra. lra.
Qed.

Lemma derivable_dot : forall (u : list R) (f : R -> list R) (d : list R),
  (forall s, length (f s) = length u) -> length d = length u ->
  (forall k, (k < length u)%nat -> derivable_pt_lim (fun s => nth k (f s) 0) 0 (nth k d 0)) ->
  derivable_pt_lim (fun s => dot u (f s)) 0 (dot u d).
Proof.
  induction u as [|a u IH]; intros f d Lf Ld H.
  - assert (dot [] d = 0) as -> by reflexivity.
    eapply derivable_pt_lim_ext; [|apply (derivable_pt_lim_const 0)]. intros s. reflexivity.
  - destruct d as [|b d]; [discriminate|].
    assert (forall s, f s = nth 0 (f s) 0 :: tl (f s)) as Ef.
    { intros s. specialize (Lf s). destruct (f s); [discriminate|reflexivity]. }
    eapply derivable_pt_lim_ext with (f := fun s => a * nth 0 (f s) 0 + dot u (tl (f s))).
    { intros s. rewrite (Ef s) at 3. reflexivity. }
    change (dot (a :: u) (b :: d)) with (a * b + dot u d).
    apply (derivable_pt_lim_plus (fun s => a * nth 0 (f s) 0)).
    + apply (derivable_pt_lim_scal (fun s => nth 0 (f s) 0)). apply (H 0%nat). cbn; lia.
    + apply IH.
      * intros s. specialize (Lf s). destruct (f s); cbn in *; lia.
      * cbn in Ld. lia.
      * intros k Hk. specialize (H (S k) ltac:(cbn; lia)). cbn in H.
        eapply derivable_pt_lim_ext; [|exact H]. intros s. cbn beta. destruct (f s); [destruct k|]; reflexivity.
Qed.

(** The reverse sweep computes the gradient of the weighted sum of the outputs. *)
Theorem tape_gradient (t t0 : tape R) x ybar :
  wf_tape t -> no_abs t -> NoDup (t_deps t) -> length x = num_indeps t -> length ybar = num_deps t ->
  tape_zero_order Rops t x = Ok t0 -> in_domains t0 ->
  exists xbar, tape_reverse Rops t0 ybar = Ok xbar /\
    forall dx, length dx = length x ->
      derivable_pt_lim (fun s => dot ybar (replay_y t (vadd x (vscal s dx)))) 0 (dot xbar dx).
Proof.
  intros W NA ND Lx Ly Hx HD.
  pose proof (W0 t t0 x W Lx Hx) as W0.
  destruct (base_at t t0 x W Lx Hx) as (V0 & A & B & C).
  assert (no_abs t0) as NA0 by (unfold no_abs, num_abs in *; rewrite A; auto).
  assert (num_indeps t0 = length x) as Ln by (unfold num_indeps in *; rewrite B; auto).
  assert (num_deps t0 = num_deps t) as Ln' by (unfold num_deps in *; rewrite C; auto).
  rewrite <- C in ND.
  destruct (adjoint_nodup t0 ybar x W0 NA0 ND) as (xbar & _ & R1 & _); [congruence|congruence|].
  exists xbar. split; [auto|]. intros dx Ldx.
  destruct (tape_derivative t t0 x W NA Lx Hx HD dx Ldx) as (dy & F & Ld & D).
  destruct (adjoint_nodup t0 ybar dx W0 NA0 ND) as (xbar' & dy' & R2 & F2 & E); [congruence|congruence|].
  assert (xbar' = xbar) as -> by congruence. assert (dy' = dy) as -> by congruence.
  rewrite <- E. apply derivable_dot.
  - intros s. rewrite replay_len; auto. rewrite vadd_length; [auto|rewrite vscal_length; auto].
  - congruence.
  - intros k Hk. apply D. congruence.
Qed.

(** The Jacobian drivers on any tape. *)
Theorem tape_jacobian red (t t0 : tape R) x :
  rayon red -> wf_tape t -> no_abs t -> NoDup (t_deps t) -> length x = num_indeps t ->
  tape_zero_order Rops t x = Ok t0 -> in_domains t0 ->
  exists J, jacobian_reverse Rops red t0 = Ok J /\ m_rows J = num_deps t /\ m_cols J = num_indeps t /\
    forall i j, (i < num_deps t)%nat -> (j < num_indeps t)%nat ->
      derivable_pt_lim (fun s => nth i (replay_y t (update x j (nth j x 0 + s))) 0) 0 (ent Rops J i j).
Proof.
  intros HR W NA ND Lx Hx HD.
  pose proof (W0 t t0 x W Lx Hx) as W0.
  destruct (base_at t t0 x W Lx Hx) as (V0 & A & B & C).
  assert (no_abs t0) as NA0 by (unfold no_abs, num_abs in *; rewrite A; auto).
  assert (num_indeps t0 = num_indeps t) as Ln by (unfold num_indeps in *; rewrite B; auto).
  assert (num_deps t0 = num_deps t) as Ln' by (unfold num_deps in *; rewrite C; auto).
  rewrite <- C in ND.
  destruct (jacobian_reverse_sweeps red t0 HR W0 NA0 ND) as (J & EJ & _ & RJ & CJ & HJ).
  exists J. split; [auto|]. split; [congruence|]. split; [congruence|]. intros i j Hi Hj.
  rewrite <- Ln in Hj. destruct (HJ j Hj) as (dy & F & _ & E). rewrite E by congruence.
  destruct (tape_derivative t t0 x W NA Lx Hx HD (unitv Rops (num_indeps t0) j)) as (dy' & F' & _ & D).
  { rewrite unitv_length. congruence. }
  assert (dy' = dy) as -> by congruence.
  eapply derivable_pt_lim_ext; [|exact (D i Hi)]. intros s. cbn beta. do 2 f_equal.
  rewrite Ln, <- Lx. apply vadd_unit. lia.
Qed.
