(** Facts about ids, poisoned contexts, derivative seeds and the convenience methods of
    AContext. *)
From Coq Require Import List Arith ZArith Bool Lia Sorted.
From Verif Require Import Base Float Operation Tape AContext Methods Function Spec Param
  TapeFacts AContextFacts Instances FunctionFacts RecordFacts ReplayFacts Api ApiFacts AbsNormal AbsNormalFacts.
Import ListNotations.

(** ** Largest id *)
Lemma max_or_0_ge l a : In a l -> a <= max_or_0 l.
Proof.
  unfold max_or_0. induction l as [|b l IH]; cbn; [tauto|]. intros [->|H]; [lia|]. specialize (IH H). lia.
Qed.

Lemma max_or_0_le l m : (forall a, In a l -> a <= m) -> max_or_0 l <= m.
Proof.
  unfold max_or_0. induction l as [|b l IH]; cbn; intros H; [lia|].
  specialize (IH (fun a Ha => H a (or_intror Ha))). specialize (H b (or_introl eq_refl)). lia.
Qed.

Lemma max_id_ge {F} (t : tape F) a :
  In a (t_indeps t) \/ In a (t_deps t) \/ In a (map vid (t_ops t)) -> a <= max_id t.
Proof.
  unfold max_id. intros [H|[H|H]]; apply max_or_0_ge in H; lia.
Qed.

Lemma max_id_le {F} (t : tape F) m :
  (forall a, In a (t_indeps t) \/ In a (t_deps t) \/ In a (map vid (t_ops t)) -> a <= m) -> max_id t <= m.
Proof.
  intros H. unfold max_id.
  assert (max_or_0 (t_indeps t) <= m) by (apply max_or_0_le; auto).
  assert (max_or_0 (t_deps t) <= m) by (apply max_or_0_le; auto).
  assert (max_or_0 (map vid (t_ops t)) <= m) by (apply max_or_0_le; auto). lia.
Qed.

Lemma recorded_ids {F} (t : tape F) a : recorded_tape t ->
  In a (t_indeps t) \/ In a (t_deps t) \/ In a (map vid (t_ops t)) -> a < length (t_vals t).
Proof.
  intros R [H|[H|H]].
  - apply (wf_indep_range _ (rt_wf _ R)); auto.
  - apply (wf_dep_range _ (rt_wf _ R)); auto.
  - apply in_map_iff in H as (o & <- & Ho). apply (def_ids_lt t (vid o) (rt_wf _ R)).
    apply in_def_ids. exists o. split; [auto|]. split; [apply (rt_no_nop _ R)|]; auto.
Qed.

Theorem max_id_is_last {F} (t : tape F) : recorded_tape t ->
  max_id t = length (t_vals t) - 1.
Proof.
  intros R. apply Nat.le_antisymm.
  - apply max_id_le. intros a H. apply (recorded_ids t a R) in H. lia.
  - destruct (length (t_vals t)) as [|n] eqn:L; [lia|].
    apply max_id_ge. destruct (rt_cover _ R n) as [H|H]; [lia| |].
    + left. replace (S n - 1) with n by lia. auto.
    + right; right. replace (S n - 1) with n by lia. apply in_def_ids in H as (o & Ho & _ & <-).
      apply in_map; auto.
Qed.

Theorem max_id_args {F} (t : tape F) o i : recorded_tape t -> In o (t_ops t) ->
  arg1 o = Some i \/ arg2 o = Some i -> i < vid o /\ i <= max_id t.
Proof.
  intros R Ho Hi. assert (i < vid o) as L.
  { pose proof (wf_ops _ (rt_wf _ R) o Ho) as H. pose proof (rt_const _ R o Ho) as HC.
    pose proof (rt_no_nop _ R o Ho) as HN.
    unfold wf_op in H. destruct (opcode o); try congruence;
      try (destruct HC as [C1 C2]; [auto|]; rewrite C1, C2 in Hi; destruct Hi; congruence);
      destruct H as (_ & (k & K1 & K2) & H); cbn in H;
      destruct Hi as [Hi|Hi];
      try (assert (k = i) by congruence; lia);
      try (destruct H as (j & J1 & J2); assert (j = i) by congruence; lia); congruence. }
  split; [auto|]. assert (vid o <= max_id t); [|lia].
  apply max_id_ge. right; right. apply in_map; auto.
Qed.

(** The abs-normal tape uses the same ids. *)
Theorem max_id_an {F} (t : tape F) a : recorded_tape t -> an_new t = Ok a -> max_id (an_tape a) = max_id t.
Proof.
  intros R E. pose proof (rt_wf _ R) as W. destruct (abs_args_ok t W) as (args & EA & _).
  unfold an_new in E. rewrite EA in E. cbn in E. injection E as <-.
  apply Nat.le_antisymm; apply max_id_le; intros k H; cbn [an_tape t_indeps t_deps t_ops an_indeps an_deps an_inner] in H.
  - assert (k < length (t_vals t) \/ k = 0) as Hk.
    { destruct H as [H|[H|H]].
      - left. apply in_app_or in H as [H|H]; [apply (wf_indep_range _ W); auto|]. apply (def_ids_lt t k W). eapply abs_ids_def; eauto.
      - left. apply in_app_or in H as [H|H]; [eapply abs_args_range; eauto|apply (wf_dep_range _ W); auto].
      - rewrite map_map in H. apply in_map_iff in H as (o & <- & Ho). unfold deabs.
        destruct (is_abs o); [right; reflexivity|left]. apply recorded_ids; auto. right; right.
        apply in_map; auto. }
    rewrite (max_id_is_last t R). lia.
  - destruct H as [H|[H|H]]; apply max_id_ge; cbn [an_tape t_indeps t_deps t_ops an_indeps an_deps an_inner].
    + left. apply in_or_app; auto.
    + right; left. apply in_or_app; auto.
    + apply in_map_iff in H as (o & <- & Ho). destruct (is_abs o) eqn:A.
      * left. apply in_or_app; right. unfold abs_ids. apply in_map, filter_In; auto.
      * right; right. rewrite map_map. apply in_map_iff. exists o. unfold deabs. rewrite A. auto.
Qed.

(** ** Poisoned contexts *)
Section Poison.
Context {Sc F : Type} (So : Fops Sc) (tof : Sc -> option F).

Lemma with_ctx_other {A} c (g : inner F -> res (A * inner F)) w r w' k :
  with_ctx c g w = Ok (r, w') -> k <> c -> w_ctx w' k = w_ctx w k.
Proof.
  unfold with_ctx. destruct (w_ctx w c) as [i|]; [|discriminate].
  destruct (g i) as [[a i']|]; [|discriminate]. intros [= _ <-] H. cbn.
  apply Nat.eqb_neq in H. rewrite H. auto.
Qed.

Lemma changes_other c i i' (w w' : world F) k : changes c i i' w w' -> k <> c -> w_ctx w' k = w_ctx w k.
Proof. intros (_ & _ & _ & H) Hk. auto. Qed.

Lemma poison_step s k s' r c i :
  a_poison s c = true -> c < w_next (a_world s) -> w_ctx (a_world s) c = Some i \/ w_ctx (a_world s) c = None ->
  step So tof s k = Some (s', r) ->
  a_poison s' c = true /\ w_next (a_world s) <= w_next (a_world s') /\
  (w_ctx (a_world s') c = w_ctx (a_world s) c \/ w_ctx (a_world s') c = None).
Proof.
  intros HP HN _ HE. destruct k; cbn [step] in HE.
  - unfold ctx_new in HE. injection HE as <- _. cbn. split; [auto|]. split; [lia|].
    left. destruct (Nat.eqb_spec c (w_next (a_world s))); [lia|auto].
  - destruct (handle s h) as [c'|]; [|discriminate]. injection HE as <- _. cbn. split; [auto|].
    destruct (owned _ c'); [auto|]. cbn. split; [auto|]. destruct (c =? c'); auto.
  - unfold from_cid in HE. injection HE as <- _. cbn. auto.
  - destruct (handle s h) as [c'|]; [|discriminate].
    destruct (nth_error (a_vars s) x) as [v|]; [|discriminate].
    destruct (a_poison s c') eqn:P; [injection HE as <- _; auto|].
    destruct (set_indep tof c' v (a_world s)) as [[v' w']|p] eqn:E.
    + injection HE as <- _. cbn. split; [auto|].
      assert (c <> c') by congruence. split; [|left; eapply with_ctx_other; eauto].
      unfold set_indep, with_ctx in E. destruct (w_ctx (a_world s) c'); [|discriminate].
      cbn in E. destruct (tof (af_v v)); [|discriminate]. cbn in E. injection E as _ <-. cbn. lia.
    + injection HE as <- _. cbn. rewrite HP, orb_true_r. auto.
  - destruct (handle s h) as [c'|]; [|discriminate].
    destruct (nth_error (a_vars s) x) as [v|]; [|discriminate].
    destruct (a_poison s c') eqn:P; [injection HE as <- _; auto|].
    destruct (set_dep tof c' v (a_world s)) as [[v' w']|p] eqn:E.
    + injection HE as <- _. cbn. split; [auto|].
      assert (c <> c') by congruence. split; [|left; eapply with_ctx_other; eauto].
      unfold set_dep, with_ctx in E. destruct (w_ctx (a_world s) c'); [|discriminate].
      destruct (match af_ctx v with Some _ => _ | None => _ end) as [[? ?]|]; [|discriminate].
      injection E as _ <-. cbn. lia.
    + injection HE as <- _. cbn. rewrite HP, orb_true_r. auto.
  - destruct (handle s h) as [c'|]; [|discriminate].
    destruct (a_poison s c') eqn:P; [injection HE as <- _; auto|].
    destruct (ctx_tape c' (a_world s)) as [[t w']|p]; injection HE as <- _; cbn; auto.
  - injection HE as <- _. cbn. auto.
  - destruct (nth_error (a_vars s) x), (nth_error (a_dirty s) x); try discriminate.
    injection HE as <- _. cbn. auto.
  - destruct (nth_error (a_vars s) x); try discriminate. injection HE as <- _. cbn. auto.
  - destruct (nth_error (a_vars s) x), (nth_error (a_dirty s) x); try discriminate.
    injection HE as <- _. cbn. auto.
  - destruct (nth_error (a_vars s) x) as [a|]; [|discriminate].
    destruct (match y with Some _ => _ | None => _ end) as [b|]; [|discriminate].
    cbn zeta in HE.
    destruct (match pick_cid a b with Ok (Some c0) => _ | _ => _ end) eqn:P;
      [injection HE as <- _; auto|].
    destruct (from_op So tof oc a b (a_world s)) as [[v w']|p] eqn:E.
    2:{ destruct (from_op_left So tof oc a b (a_world s)) as [[c0 w']|] eqn:EL;
          injection HE as <- _; auto. cbn. rewrite HP, orb_true_r. split; [auto|].
        apply from_op_left_spec in EL as (Ep & i0 & i1 & _ & Ch). rewrite Ep in P.
        pose proof Ch as (HW & Hc & _). rewrite Hc in P. assert (c <> c0) by congruence.
        split; [rewrite HW; lia|]. left. eapply changes_other; eauto. }
    injection HE as <- _. cbn. split; [auto|].
    apply from_op_spec in E as (_ & _ & D).
    destruct D as [-> _ _ | c0 i0 i1 i2 v1 v2 fv Ep Ec _ _ _ _ Ch]; [auto|].
    rewrite Ep, Ec in P. assert (c <> c0) by congruence.
    split; [|left; eapply changes_other; eauto]. destruct Ch as (HW & _). rewrite HW. lia.
Qed.

(** Once poisoned, always poisoned, and the contents of the context never change again; it can
    only be dropped. *)
Theorem poison_forever s ks s' c i :
  a_poison s c = true -> c < w_next (a_world s) -> w_ctx (a_world s) c = Some i ->
  history So tof s ks s' ->
  a_poison s' c = true /\ (w_ctx (a_world s') c = Some i \/ w_ctx (a_world s') c = None).
Proof.
  intros HP HN HC H.
  assert (a_poison s' c = true /\ w_next (a_world s) <= w_next (a_world s') /\
          (w_ctx (a_world s') c = Some i \/ w_ctx (a_world s') c = None)) as (A & _ & B).
  { induction H as [|ks s1 k s2 r H IH Wk Hs]; [auto|].
    destruct IH as (I1 & I2 & I3).
    destruct (poison_step s1 k s2 r c i I1 ltac:(lia) I3 Hs) as (J1 & J2 & J3).
    split; [auto|]. split; [lia|]. destruct J3 as [J3|J3]; rewrite J3; auto. }
  auto.
Qed.

(** Every call on a poisoned context panics and changes nothing. *)
Theorem poison_panics s c h x : a_poison s c = true -> handle s h = Some c ->
  nth_error (a_vars s) x <> None ->
  step So tof s (CIndep h x) = Some (s, Some PUnwrap) /\
  step So tof s (CDep h x) = Some (s, Some PUnwrap) /\
  step So tof s (CTape h) = Some (s, Some PUnwrap).
Proof.
  intros HP Hh Hx. cbn. rewrite Hh, HP.
  destruct (nth_error (a_vars s) x); [auto|contradiction].
Qed.

(** So does every operation on a variable of it, as long as it exists. *)
Theorem poison_ops s c oc x y a k i : a_poison s c = true -> w_ctx (a_world s) c = Some i ->
  nth_error (a_vars s) x = Some a -> af_ctx a = Some (c, k) ->
  (step So tof s (COp oc x None) = Some (s, Some PUnwrap)) /\
  (forall b, nth_error (a_vars s) y = Some b ->
     (forall c2 k2, af_ctx b = Some (c2, k2) -> c2 = c) ->
     step So tof s (COp oc x (Some y)) = Some (s, Some PUnwrap) /\
     step So tof s (COp oc y (Some x)) = Some (s, Some PUnwrap)).
Proof.
  intros HP HC Ha Hk. split.
  - cbn. rewrite Ha. cbn. rewrite Hk. cbn. rewrite HC, HP. auto.
  - intros b Hb H2. cbn. rewrite Ha, Hb. unfold pick_cid. rewrite Hk.
    destruct (af_ctx b) as [[c2 k2]|].
    + rewrite (H2 c2 k2 eq_refl). rewrite Nat.eqb_refl. cbn. rewrite HC, HP. auto.
    + cbn. rewrite HC, HP. auto.
Qed.

End Poison.

(** ** Derivative seeds *)
Section Seeds.
Context {F : Type} (Fo : Fops F).

(** Equal except for the derivative. *)
Definition same_but_dv (x y : AF F) : Prop := af_v x = af_v y /\ af_ctx x = af_ctx y.

Lemma sim_seed_fop (u : unit) oc x1 y1 x2 y2 :
  arity_ok oc y1 -> same_but_dv x1 x2 -> orel same_but_dv y1 y2 ->
  simM true (fun _ _ => True) (fun _ (s1 s2 : world F) => s1 = s2) (fun _ => same_but_dv) u
       (from_op Fo Some oc x1 y1) (from_op Fo Some oc x2 y2).
Proof.
  intros Ha [V C] Hy s1 s2 <-. unfold from_op, mbind, mlift.
  assert (option_map af_v y1 = option_map af_v y2) as V2.
  { destruct y1, y2; cbn in Hy; try contradiction; cbn; auto. destruct Hy as [-> _]; auto. }
  rewrite <- V, <- V2.
  destruct (zero_order_value _ _ _ _) as [v|]; auto.
  destruct (first_order_value_total Fo oc (af_v x1) (option_map af_v y1) (af_dv x1) (option_map af_dv y1))
    as [d1 ->].
  { destruct y1; cbn in *; [right; repeat split; auto; discriminate | auto]. }
  destruct (first_order_value_total Fo oc (af_v x1) (option_map af_v y1) (af_dv x2) (option_map af_dv y2))
    as [d2 ->].
  { destruct y1, y2; cbn in *; try contradiction; [right; repeat split; auto; discriminate | auto]. }
  assert (pick_cid x2 y2 = pick_cid x1 y1) as ->.
  { unfold pick_cid. rewrite C. destruct y1 as [y1|], y2 as [y2|]; cbn in Hy; try contradiction; auto.
    destruct Hy as [_ ->]; auto. }
  assert (EN : forall c a b, same_but_dv a b -> ensure_id Some c a = ensure_id Some c b).
  { intros c a b [Va Ca]. unfold ensure_id. rewrite Va, Ca. auto. }
  destruct (pick_cid x1 y1) as [[c|]|p]; [| |auto].
  - unfold from_cid. destruct (w_ctx s1 c).
    + rewrite (EN c x1 x2 (conj V C)).
      destruct (ensure_id Some c x2 s1) as [[k s']|]; [|auto].
      assert (match y1 with Some y' => mbind (ensure_id Some c y') (fun j => mret (Some j)) | None => mret None end
            = match y2 with Some y' => mbind (ensure_id Some c y') (fun j => mret (Some j)) | None => mret None end) as EY.
      { destruct y1 as [y1|], y2 as [y2|]; cbn in Hy; try contradiction; auto.
        rewrite (EN c y1 y2 Hy). auto. }
      unfold mbind in EY; rewrite EY.
      match type of EY with _ = ?m => destruct (m s') as [[k2 s'']|] end; [|auto].
      destruct (record Some c oc v (Some k) k2 s'') as [[r s3]|]; [|auto].
      cbn. eexists _, _, tt. split; [reflexivity|]. split; [auto|]. split; [auto|]. split; reflexivity.
    + cbn. eexists _, _, tt. split; [reflexivity|]. split; [auto|]. split; [auto|]. split; reflexivity.
  - cbn. eexists _, _, tt. split; [reflexivity|]. split; [auto|]. split; [auto|]. split; reflexivity.
Qed.

(** A function run on variables that differ only in their derivatives: same panics, same values,
    same recordings. *)
Theorem seeds_do_not_matter f env1 env2 w :
  Forall2 same_but_dv env1 env2 ->
  match eval Fo f env1 w with
  | Ok (outs1, w') => exists outs2, eval Fo f env2 w = Ok (outs2, w') /\ Forall2 same_but_dv outs1 outs2
  | Panic p => eval Fo f env2 w = Panic p
  end.
Proof.
  intros H.
  assert (S : simM true (fun _ _ => True) (fun (_ : unit) (s1 s2 : world F) => s1 = s2)
     (RVs (fun _ => same_but_dv)) tt (eval Fo f env1) (eval Fo f env2)).
  { apply sim_feval; auto.
    - apply sim_seed_fop.
    - intros w0 v. split; reflexivity.
    - left. intros ? ? ? [-> _]; auto. }
  specialize (S w w eq_refl).
  destruct (eval Fo f env1 w) as [[o1 w1]|p]; [|auto].
  destruct S as (o2 & s2 & u0 & -> & _ & <- & HV). eauto.
Qed.

End Seeds.

(** ** new_indep, new_indep_vec, set_dep_slice *)
Section Conv.
Context {F : Type} (Fo : Fops F).

Theorem new_indep_vec_spec c len v w i :
  w_ctx w c = Some i ->
  exists w', new_indep_vec Fo Some c len v w =
      Ok (map (fun k => mkAF v (f_zero Fo) (Some (c, length (i_vals i) + k))) (seq 0 len), w') /\
    w_next w' = w_next w /\ (forall k, k <> c -> w_ctx w' k = w_ctx w k) /\
    w_ctx w' c = Some (mkInner (i_indeps i ++ seq (length (i_vals i)) len) (i_deps i) (i_ops i)
                               (i_vals i ++ repeat v len)).
Proof.
  intros H. unfold new_indep_vec.
  destruct (set_indeps_spec Fo c (repeat v len) w i H) as (w' & E & Ch).
  assert (map (af_const Fo) (repeat v len) = repeat (af_const Fo v) len) as EM
    by (clear; induction len; cbn; congruence).
  rewrite EM in E. exists w'.
  change (af_new v (f_zero Fo)) with (af_const Fo v). rewrite E. rewrite repeat_length in Ch.
  destruct Ch as (A & B & C & D). split; [|split; [auto|split; [auto|exact C]]].
  f_equal. f_equal. clear. generalize (length (i_vals i)) as n.
  induction len as [|len IH]; intros n; cbn; auto. rewrite Nat.add_0_r. f_equal.
  unfold mk_inputs in IH. rewrite IH, <- seq_shift, map_map. apply map_ext. intros k. do 3 f_equal. lia.
Qed.

Theorem new_indep_spec c v w i :
  w_ctx w c = Some i ->
  exists w', new_indep Fo Some c v w = Ok (mkAF v (f_zero Fo) (Some (c, length (i_vals i))), w') /\
    w_next w' = w_next w /\ (forall k, k <> c -> w_ctx w' k = w_ctx w k) /\
    w_ctx w' c = Some (mkInner (i_indeps i ++ [length (i_vals i)]) (i_deps i) (i_ops i) (i_vals i ++ [v])).
Proof.
  intros H. unfold new_indep, set_indep, with_ctx. rewrite H. cbn. eexists. split; [reflexivity|].
  cbn. split; [auto|]. rewrite Nat.eqb_refl. split; [|auto].
  intros k Hk. apply Nat.eqb_neq in Hk. rewrite Hk. auto.
Qed.

End Conv.

(** ** In reachable states *)
Lemma poison_forever_reachable {Sc F} (So : Fops Sc) (tof : Sc -> option F) s ks s' c i :
  reachable So tof s -> a_poison s c = true -> w_ctx (a_world s) c = Some i ->
  history So tof s ks s' ->
  a_poison s' c = true /\ (w_ctx (a_world s') c = Some i \/ w_ctx (a_world s') c = None).
Proof.
  intros R HP HC. apply (poison_forever So tof s ks s' c i HP); auto.
  apply reachable_inv in R. apply (inv_world _ _ R c i HC).
Qed.

Lemma reachable_max_id {Sc F} (So : Fops Sc) (tof : Sc -> option F) s t :
  reachable So tof s -> In t (a_tapes s) ->
  max_id t = length (t_vals t) - 1 /\
  (forall o, In o (t_ops t) -> vid o <= max_id t) /\
  (forall o i, In o (t_ops t) -> arg1 o = Some i \/ arg2 o = Some i -> i < vid o) /\
  (forall i, In i (t_indeps t) \/ In i (t_deps t) -> i <= max_id t) /\
  (forall a, an_new t = Ok a -> max_id (an_tape a) = max_id t).
Proof.
  intros R Ht. apply reachable_inv in R. pose proof (inv_tapes _ _ R t Ht) as RT.
  split; [apply max_id_is_last; auto|]. split; [|split; [|split]].
  - intros o Ho. apply max_id_ge. right; right. apply in_map; auto.
  - intros o i Ho Hi. eapply max_id_args; eauto.
  - intros i [H|H]; apply max_id_ge; auto.
  - intros a. apply max_id_an; auto.
Qed.
