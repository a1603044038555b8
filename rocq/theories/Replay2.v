(** Replay facts in the form the property theorems use. *)
From Coq Require Import List Arith ZArith Bool Lia SpecFloat.
From Verif Require Import Base Float Operation Tape AContext Methods Function Spec Param
  TapeFacts AContextFacts Instances FunctionFacts RecordFacts ReplayFacts SweepFacts Api ApiFacts
  ApiFacts2 ApiFacts3 FloatInst.
Import ListNotations.

Section Replay2.
Context {F : Type} (Fo : Fops F).

Lemma replay_float f x w t w' x' :
  fn_tape Fo f x w = Ok (t, w') -> length x' = length x ->
  straight_f f \/ agree_f Fo f x x' ->
  exists t' y', tape_zero_order Fo t x' = Ok t' /\ tape_y t' = Ok y' /\
    forall w2, eval_float Fo f x' w2 = Ok (y', w2).
Proof.
  intros HT L H.
  assert (exists t' y', tape_zero_order Fo t x' = Ok t' /\ tape_y t' = Ok y' /\
            v_eval Fo f x' = Ok y') as (t' & y' & A & B & C).
  { destruct H as [H|H].
    - eapply replay_straight; eauto.
    - eapply replay_same_path; eauto. apply agree_f_path; auto. }
  exists t', y'. split; [auto|]. split; [auto|]. intros w2. rewrite eval_float_v, C. reflexivity.
Qed.

Lemma record_iff f x w :
  (exists t w', fn_tape Fo f x w = Ok (t, w')) <-> (exists y w', eval_float Fo f x w = Ok (y, w')).
Proof.
  pose proof (fn_tape_total Fo f x w) as T. rewrite eval_float_v.
  destruct (v_eval Fo f x) as [y|p]; cbn [bind].
  - split; eauto.
  - split; intros (? & ? & ?); [congruence|discriminate]. 
Qed.

Lemma zero_order_same t x t' :
  tape_zero_order Fo t x = Ok t' ->
  t_indeps t' = t_indeps t /\ t_deps t' = t_deps t /\ t_ops t' = t_ops t /\
  length x = num_indeps t.
Proof.
  unfold tape_zero_order, assert. destruct (Nat.eqb_spec (length x) (num_indeps t)); [|discriminate].
  cbn. intros H. apply bind_ok in H as (v1 & _ & H). apply bind_ok in H as (v2 & _ & [= <-]).
  auto.
Qed.

Lemma zero_order_wf t x t' : wf_tape t -> tape_zero_order Fo t x = Ok t' -> wf_tape t'.
Proof.
  intros W E. destruct (zero_order_same _ _ _ E) as (A1 & A2 & A3 & L).
  destruct (zero_sweep_values Fo t x W L) as (t2 & E2 & _ & _ & _ & V).
  assert (t2 = t') as -> by congruence.
  assert (length (t_vals t') = length (t_vals t)) as EL by apply (va_len _ _ _ _ V).
  destruct W as [W1 W2 W3 W4 W5 W6]. constructor; rewrite ?A1, ?A2, ?A3, ?EL; auto.
Qed.

Lemma no_history t xs t1 x :
  wf_tape t -> foldM (fun t x => tape_zero_order Fo t x) xs t = Ok t1 ->
  tape_zero_order Fo t1 x = tape_zero_order Fo t x.
Proof.
  intros W. revert t W. induction xs as [|a xs IH]; intros t W; cbn [foldM].
  - intros [= ->]; auto.
  - intros H. apply bind_ok in H as (t2 & E2 & H).
    rewrite (IH t2); eauto using zero_order_wf.
    destruct (zero_order_same _ _ _ E2) as (A1 & A2 & A3 & L).
    destruct (Nat.eq_dec (length x) (num_indeps t)) as [E|E].
    + eapply replay_no_history; eauto.
    + unfold tape_zero_order, assert. unfold num_indeps in *. rewrite A1.
      destruct (Nat.eqb_spec (length x) (length (t_indeps t))); [contradiction|]. reflexivity.
Qed.

Lemma zero_order_after t x :
  wf_tape t -> length x = num_indeps t ->
  exists t', tape_zero_order Fo t x = Ok t' /\ tape_x t' = Ok x /\
    t_indeps t' = t_indeps t /\ t_deps t' = t_deps t /\ t_ops t' = t_ops t.
Proof.
  intros W L. destruct (zero_sweep_values Fo t x W L) as (t' & E & A1 & A2 & A3 & V).
  exists t'. split; [auto|]. split; [|auto]. unfold tape_x. rewrite A1.
  apply gather_seeded; auto. apply (va_seed _ _ _ _ V).
Qed.

Lemma zero_order_wrong t x :
  length x <> num_indeps t -> tape_zero_order Fo t x = Panic PAssert.
Proof.
  intros H. unfold tape_zero_order, assert. destruct (Nat.eqb_spec (length x) (num_indeps t)); auto.
  contradiction.
Qed.

Lemma fresh f x w t w' :
  fn_tape Fo f x w = Ok (t, w') ->
  tape_x t = Ok x /\ num_indeps t = length x /\ tape_zero_order Fo t x = Ok t /\
  exists y, eval_float Fo f x w = Ok (y, w) /\ tape_y t = Ok y /\ num_deps t = length y.
Proof.
  intros H. destruct (fn_tape_fresh Fo _ _ _ _ _ H) as (A & (y & B1 & B2 & B3) & C & D).
  split; [auto|]. split; [auto|]. split; [auto|]. exists y. rewrite eval_float_v, B1. auto.
Qed.

(** [Function::tape] leaves no trace in the process except the advanced id counter. *)
Lemma fn_tape_clean f x w t w' :
  fn_tape Fo f x w = Ok (t, w') -> w_ctx w (w_next w) = None ->
  w_next w' = w_next w + 1 /\ forall k, w_ctx w' k = w_ctx w k.
Proof.
  intros H Hn. destruct (fn_tape_inv Fo _ _ _ _ _ H)
    as (w1 & w2 & w3 & outs & i & Ch & E1 & E2 & E3 & -> & N & D & K).
  set (c := w_next w) in *.
  set (G := fun u : world F => w_next u = c + 1 /\ forall k, k <> c -> w_ctx u k = w_ctx w k).
  assert (HG : forall u u' j j', changes c j j' u u' -> G u -> G u').
  { intros u u' j j' (A1 & _ & _ & A4) [G1 G2]. split; [congruence|].
    intros k Hk. rewrite A4; auto. }
  assert (G w1) as G1.
  { destruct Ch as (A1 & _ & _ & A4). split; [auto|]. intros k Hk. rewrite A4; auto. cbn.
    apply Nat.eqb_neq in Hk. rewrite Hk. auto. }
  pose proof (eval_one_ctx Fo c G HG f (mk_inputs Fo c 0 x) w1) as R.
  assert (Forall (belongs c) (mk_inputs Fo c 0 x)) as HB.
  { unfold mk_inputs. apply Forall_forall. intros a Ha. apply in_map_iff in Ha as (p & <- & _).
    right. cbn. eauto. }
  specialize (R HB G1). rewrite E1 in R.
  destruct (d_eval Fo f (map vd (mk_inputs Fo c 0 x))); [|discriminate].
  destruct R as (outs' & w2' & [= <- <-] & _ & HB' & G2).
  assert (G w3) as [G3 G4].
  { clear -HG G2 E2 HB'. revert w2 G2 E2. induction HB' as [|o outs Ho HB IH]; intros w2 G2 E2.
    - injection E2 as <-. auto.
    - cbn [set_dep_slice] in E2. unfold mbind in E2.
      destruct (set_dep Some c o w2) as [[[] u]|] eqn:Es; [|discriminate].
      apply (IH u); auto.
      apply (set_dep_spec (Some : F -> option F)) in Es as (j & Hj & [(v & _ & ->)|(v & _ & _ & ->)]);
        (eapply HG; [apply changes_upd; eauto|auto]). }
  split; [congruence|]. intros k. destruct (Nat.eq_dec k c) as [->|Hk]; [congruence|].
  rewrite K, G4; auto.
Qed.

Definition pairs (x dx : list F) : list (AF F) :=
  map (fun p => af_new (fst p) (snd p)) (combine x dx).

Lemma forward_is_tapeless f x w t w' dx :
  fn_tape Fo f x w = Ok (t, w') -> length dx = length x -> const_tangents_zero Fo f x dx ->
  exists outs, (forall w2, eval Fo f (pairs x dx) w2 = Ok (outs, w2)) /\
    tape_forward Fo t dx = Ok (map af_dv outs).
Proof.
  intros HT L HC. destruct (forward_tapeless Fo f x w t w' dx HT L HC) as (yd & E & Ef).
  exists (map (fun p => af_new (fst p) (snd p)) yd). split.
  - intros w2. unfold pairs. rewrite eval_detached, E. reflexivity.
  - rewrite Ef. f_equal. rewrite map_map. apply map_ext. auto.
Qed.

(** If the derivative rules map zero tangents to zero, constant sub-expressions have tangent
    zero. *)
Lemma const_tangents f x dx :
  (forall oc a b r, first_order_value Fo oc a b (f_zero Fo) (Some (f_zero Fo)) = Ok r \/
                    first_order_value Fo oc a b (f_zero Fo) None = Ok r -> r = f_zero Fo) ->
  const_tangents_zero Fo f x dx.
Proof.
  intros HZ. unfold const_tangents_zero. intros ys P.
  set (RV := fun (_ : unit) (a b : (F * F) * bool) =>
               a = b /\ (snd a = true -> snd (fst a) = f_zero Fo)).
  set (RS := fun (_ : unit) (s1 s2 : Prop) => s1 = s2 /\ s1).
  set (env := map (fun xd => (xd, false)) (combine x dx)).
  assert (H : simM true (fun _ _ => True) RS (RVs RV) tt
    (feval Fo (k_fop Fo) (k_cst Fo) (fun r => fst (fst r)) f env)
    (feval Fo (k_fop Fo) (k_cst Fo) (fun r => fst (fst r)) f env)).
  { apply sim_feval; auto.
    - intros [] oc x1 y1 x2 y2 Ha [<- Hx] Hy s1 s2 [<- Hs].
      assert (y1 = y2 /\ forall b, y1 = Some b -> snd b = true -> snd (fst b) = f_zero Fo)
        as [<- Hy'].
      { destruct y1, y2; cbn in Hy; try contradiction.
        - destruct Hy as [-> Hy]. split; auto. intros b [= <-]; auto.
        - split; auto. discriminate. }
      destruct (k_fop Fo oc x1 y1 s1) as [[r s1']|p] eqn:E; auto.
      exists r, s1', tt. split; [auto|]. split; [auto|]. unfold k_fop in E.
      unfold d_fop, mbind, mlift in E.
      destruct (zero_order_value Fo oc (fst (fst x1)) _) as [v|]; [|discriminate].
      destruct (first_order_value Fo oc (fst (fst x1)) _ (snd (fst x1)) _) as [d|] eqn:Ed;
        [|discriminate].
      cbn in E. injection E as <- <-.
      assert (snd x1 && match y1 with Some y' => snd y' | None => true end = true ->
              d = f_zero Fo) as G.
      { intros G. apply andb_prop in G as [G1 G2]. rewrite (Hx G1) in Ed.
        destruct y1 as [b|]; cbn in Ed; eapply HZ.
        - rewrite (Hy' b eq_refl G2) in Ed. left; eauto.
        - right; eauto. }
      split.
      + split; auto. destruct (_ && _); auto.
      + split; auto.
    - intros [] v. split; auto.
    - left. intros ? ? ? [-> _]; auto.
    - unfold RVs, env. clear. induction (combine x dx); constructor; auto.
      split; auto. discriminate. }
  intros E. specialize (H True True (conj eq_refl I)). fold env in E. rewrite E in H.
  destruct H as (? & ? & ? & _ & _ & [_ H] & _). auto.
Qed.

End Replay2.

(** ** API facts in the form the property theorems use *)
Lemma inv_agree {F} (Fo : Fops F) (s : api F F) j x c v i :
  reachable Fo Some s -> nth_error (a_vars s) j = Some x -> nth_error (a_dirty s) j = Some false ->
  af_ctx x = Some (c, v) -> w_ctx (a_world s) c = Some i ->
  nth_error (i_vals i) v = Some (af_v x).
Proof.
  intros R Hx Hd Hc Hi. apply reachable_inv in R.
  pose proof (inv_vars _ _ R _ _ _ Hx Hd) as V. unfold valid_af in V. rewrite Hc in V.
  destruct V as [_ V]. destruct (V i Hi) as [_ V2]. destruct (V2 eq_refl) as (fv & [= <-] & H).
  auto.
Qed.

Lemma clean_tape_replay {F} (Fo : Fops F) ks (s : api F F) t :
  clean_history Fo Some api0 ks s -> In t (a_tapes s) ->
  exists x, tape_x t = Ok x /\ tape_zero_order Fo t x = Ok t.
Proof.
  intros H Ht. destruct (clean_history_clean Fo _ _ _ (inv0 Some) (clean0 Fo) H) as [I C].
  destruct (cl_tapes _ _ C t Ht) as (x & Hx & V). exists x. split; auto.
  apply values_at_replay; auto.
  - apply (inv_tapes _ _ I t Ht).
  - eapply gather_length; eauto.
Qed.

Lemma step_append_or_drop {Sc F} (So : Fops Sc) (tof : Sc -> option F) s k s' r c i :
  reachable So tof s -> wf_call k -> step So tof s k = Some (s', r) ->
  w_ctx (a_world s) c = Some i ->
  match w_ctx (a_world s') c with
  | Some i' =>
      (exists l, i_indeps i' = i_indeps i ++ l) /\ (exists l, i_deps i' = i_deps i ++ l) /\
      (exists l, i_ops i' = i_ops i ++ l) /\ (exists l, i_vals i' = i_vals i ++ l)
  | None => exists h, k = CDrop h /\ handle s h = Some c /\ owned (a_handles s') c = false
  end.
Proof.
  intros R Wk E Hc. destruct (w_ctx (a_world s') c) as [i'|] eqn:E'.
  - eapply step_append; eauto. eapply reachable_inv; eauto.
  - eapply step_alive; eauto.
Qed.

Lemma ids_unique {Sc F} (So : Fops Sc) (tof : Sc -> option F) s :
  reachable So tof s ->
  NoDup (a_created s) /\
  exists s' c, step So tof s CNew = Some (s', None) /\ a_created s' = a_created s ++ [c] /\
    ~ In c (a_created s) /\ handle s' (length (a_handles s)) = Some c.
Proof.
  intros R. apply reachable_inv in R. destruct R as [IW IL IV IH IN IC IT].
  rewrite IC. split; [apply seq_NoDup|]. eexists _, _. split; [reflexivity|]. cbn. rewrite IC.
  split; [reflexivity|]. split.
  - rewrite in_seq. lia.
  - unfold handle. cbn. rewrite nth_error_app2, Nat.sub_diag; auto.
Qed.

Lemma owned_handle {Sc F} (s : api Sc F) c :
  owned (a_handles s) c = true <-> exists h, handle s h = Some c.
Proof.
  split.
  - unfold owned. intros H. apply existsb_exists in H as (o & Ho & H).
    destruct o as [c'|]; [|discriminate]. apply Nat.eqb_eq in H. subst c'.
    apply In_nth_error in Ho as [h Hh]. exists h. unfold handle. rewrite Hh. auto.
  - intros [h H]. eapply handle_owned; eauto.
Qed.

Lemma reachable_zero {Sc F} (So : Fops Sc) (tof : Sc -> option F) s :
  reachable So tof s -> w_ctx (a_world s) 0 = None.
Proof.
  intros [ks H]. destruct (history_inv So tof _ _ _ (inv0 tof) H) as [_ [_ X]].
  destruct (w_ctx (a_world s) 0) as [i|] eqn:E; auto.
  destruct (X 0 i) as (i0 & H0 & _); auto. discriminate.
Qed.

Lemma lookup_exact {Sc F} (So : Fops Sc) (tof : Sc -> option F) s c :
  reachable So tof s ->
  exists s' o, step So tof s (CLookup c) = Some (s', None) /\
    nth_error (a_handles s') (length (a_handles s)) = Some o /\
    (o = Some c <-> exists h, handle s h = Some c) /\
    (o = None <-> forall h, handle s h <> Some c) /\
    (~ In c (a_created s) -> o = None).
Proof.
  intros R. pose proof (reachable_zero _ _ _ R) as Z.
  apply reachable_inv in R. destruct R as [IW IL IV IH IN IC IT].
  eexists _, _. split; [reflexivity|]. cbn.
  split; [rewrite nth_error_app2, Nat.sub_diag; [reflexivity|auto]|].
  pose proof (IH c) as H. rewrite owned_handle in H.
  destruct (w_ctx (a_world s) c) as [i|] eqn:E.
  - split; [|split].
    + split; auto. intros _. apply H. discriminate.
    + split; [discriminate|]. intros G. exfalso.
      destruct (proj2 H) as [h Hh]; [discriminate|]. apply (G h Hh).
    + intros G. exfalso. apply G. rewrite IC. apply in_seq.
      assert (c < w_next (a_world s)) by apply (IW c i E).
      assert (c <> 0) by (intros ->; congruence). lia.
  - split; [|split]; auto.
    + split; [discriminate|]. intros G. exfalso. apply H; auto.
    + split; auto. intros _ h Hh. apply (proj1 H); eauto.
Qed.

Lemma foreign_dep {Sc F} (So : Fops Sc) (tof : Sc -> option F) h x (a : AF Sc) c c2 v2
    (s : api Sc F) :
  reachable So tof s -> handle s h = Some c -> a_poison s c = false ->
  nth_error (a_vars s) x = Some a -> af_ctx a = Some (c2, v2) -> c2 <> c ->
  exists s', step So tof s (CDep h x) = Some (s', Some PAssert) /\ a_world s' = a_world s /\
    a_tapes s' = a_tapes s /\ a_vars s' = a_vars s.
Proof.
  intros R Hh Hp Hx Ha Hne. eexists. split.
  - eapply step_mix_dep; eauto. eapply reachable_inv; eauto.
  - auto.
Qed.

Lemma foreign_dep_poisons {Sc F} (So : Fops Sc) (tof : Sc -> option F) h x (a : AF Sc) c c2 v2
    (s : api Sc F) :
  reachable So tof s -> handle s h = Some c -> a_poison s c = false ->
  nth_error (a_vars s) x = Some a -> af_ctx a = Some (c2, v2) -> c2 <> c ->
  exists s', step So tof s (CDep h x) = Some (s', Some PAssert) /\
    step So tof s' (CTape h) = Some (s', Some PUnwrap) /\
    forall y b v oc, nth_error (a_vars s') y = Some b -> af_ctx b = Some (c, v) ->
      step So tof s' (COp oc y None) = Some (s', Some PUnwrap).
Proof.
  intros R Hh Hp Hx Ha Hne. pose proof (reachable_inv _ _ _ R) as I. eexists. split.
  - eapply step_mix_dep; eauto.
  - unfold set_poison. split.
    + cbn [step]. unfold handle in *. cbn [a_handles]. rewrite Hh. cbn [a_poison].
      rewrite Nat.eqb_refl. reflexivity.
    + cbn [a_vars]. intros y b v oc Hy Hb. cbn [step a_vars]. rewrite Hy.
      unfold pick_cid. rewrite Hb. cbn [a_world a_poison].
      assert (w_ctx (a_world s) c <> None) as L.
      { apply (inv_handles _ _ I). eapply handle_owned; eauto. }
      destruct (w_ctx (a_world s) c); [|congruence]. rewrite Nat.eqb_refl. reflexivity.
Qed.

Lemma functions_unaffected {F} (Fo : Fops F) c f (env : list (AF F)) w :
  Forall (belongs c) env ->
  match eval Fo f (map (fun a => af_new (af_v a) (af_dv a)) env) w with
  | Ok (outs0, _) => exists outs w', eval Fo f env w = Ok (outs, w') /\
      map vd outs = map vd outs0 /\ Forall (belongs c) outs
  | Panic p => eval Fo f env w = Panic p
  end.
Proof.
  intros HB.
  pose proof (eval_one_ctx Fo c (fun _ => True) (fun _ _ _ _ _ _ => I) f env w HB I) as H1.
  assert (eval Fo f (map (fun a => af_new (af_v a) (af_dv a)) env) w =
          match d_eval Fo f (map vd env) with
          | Ok yd => Ok (map (fun p => af_new (fst p) (snd p)) yd, w)
          | Panic p => Panic p
          end) as ->.
  { pose proof (eval_detached Fo f (map vd env) w) as E. rewrite map_map in E. unfold vd in E at 1 2.
    cbn [fst snd] in E. rewrite E. destruct (d_eval Fo f (map vd env)); reflexivity. }
  destruct (d_eval Fo f (map vd env)) as [yd|p]; auto.
  destruct H1 as (outs & w' & E & V & B & _). exists outs, w'. split; auto. split; auto.
  rewrite V, map_map. unfold vd; cbn. rewrite <- (map_id yd) at 1. apply map_ext.
  intros []; auto.
Qed.

Lemma dead_functions {F} (Fo : Fops F) c f (env outs : list (AF F)) w w' :
  Forall (belongs c) env -> w_ctx w c = None -> eval Fo f env w = Ok (outs, w') -> w' = w.
Proof.
  intros HB Hd E.
  pose proof (eval_one_ctx Fo c (fun w1 => w1 = w)) as H.
  assert (forall w1 w2 i i', changes c i i' w1 w2 -> w1 = w -> w2 = w) as HG.
  { intros w1 w2 i i' (_ & L & _) ->. congruence. }
  specialize (H HG f env w HB eq_refl). rewrite E in H.
  destruct (d_eval Fo f (map vd env)); [|discriminate].
  destruct H as (o & w1 & [= <- <-] & _ & _ & G). auto.
Qed.
