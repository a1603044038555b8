(** The shortest-path example as a whole: all its tapes, recorded at zero and replayed. *)
From Coq Require Import Reals Lra List Arith ZArith Bool Lia.
From Verif Require Import Base Float FloatInst Matrix Operation Tape AContext Methods Function Spec TapeFacts RealInst Param Instances
  FunctionFacts ReplayFacts Replay2 MethodSpec MethodFacts Build BuildFacts Programs FloydSpec FloydFacts.
Import ListNotations.
Open Scope R_scope.

(** ** The street map *)
Definition light_ok (env : list R) (l : nat * nat) (p : R) : Prop :=
  nth_error env (fst l) = Some (share p true) /\ nth_error env (snd l) = Some (share p false).
Definition lights_ok (env : list R) (ls : list (nat * nat)) (ps : list R) : Prop := Forall2 (light_ok env) ls ps.

Lemma lights_ext env ext ls ps : lights_ok env ls ps -> lights_ok (env ++ ext) ls ps.
Proof. intros H. eapply Forall2_impl; [|exact H]. intros l p [H1 H2]. split; now apply get_ext. Qed.

Ltac ext := repeat first [eassumption | apply get_last | apply get_ext].

Lemma sem_light q p env : nth_error env q = Some p ->
  bsem (new_traffic_light Rops q) env (fun l env' => light_ok env' l p).
Proof.
  intros Hq. unfold new_traffic_light.
  apply sem_bind, sem_const. intros _.
  apply sem_bind. eapply (sem_bin BMax); [cbn; tauto|ext|ext|]. intros _.
  apply sem_bind, sem_const. intros _.
  apply sem_bind. eapply (sem_bin BMin); [cbn; tauto|ext|ext|]. intros _.
  apply sem_bind, sem_const. intros _.
  apply sem_bind. eapply (sem_bin BSub); [cbn; tauto|ext|ext|]. intros _.
  apply sem_ret. split; cbn [fst snd].
  - do 2 apply get_ext. apply get_last.
  - apply get_last.
Qed.

Lemma sem_lights x : bsem (b_for (fun ls q => l <b new_traffic_light Rops q ;; b_ret (ls ++ [l])) (seq 0 (length x)) []) x
  (fun ls env => lights_ok env ls x).
Proof.
  eapply sem_conseq.
  - apply (sem_for _ (fun done ls env => (exists e, env = x ++ e) /\ lights_ok env ls (firstn (length done) x))).
    + split; [exists []; now rewrite app_nil_r|]. constructor.
    + intros done a rest ls env E [(e & ->) H].
      assert (a = length done /\ (length done < length x)%nat) as [-> Hl].
      { assert (nth_error (seq 0 (length x)) (length done) = Some a) as En.
        { rewrite E, nth_error_app2, Nat.sub_diag; auto. }
        assert (length done < length x)%nat as Hl.
        { rewrite <- (seq_length (length x) 0), E, app_length. cbn. lia. }
        split; [|auto]. apply (nth_error_nth _ _ 0%nat) in En. rewrite seq_nth in En by auto. cbn in En. auto. }
      destruct (nth_error x (length done)) as [p|] eqn:Ep; [|apply nth_error_None in Ep; lia].
      apply sem_bind. eapply sem_conseq; [apply sem_light, get_ext, Ep|].
      intros l ext Hlo _. apply sem_ret. split; [exists (e ++ ext); now rewrite app_assoc|].
      rewrite app_length. cbn [length]. rewrite Nat.add_1_r.
      assert (firstn (S (length done)) x = firstn (length done) x ++ [p]) as ->.
      { clear -Ep. revert x Ep. induction (length done) as [|k IH]; intros [|b x] E; try discriminate; cbn in *.
        - injection E as ->. reflexivity.
        - rewrite <- IH by auto. reflexivity. }
      apply Forall2_app; [now apply lights_ext|]. constructor; [exact Hlo|constructor].
  - intros ls ext [_ H]. rewrite seq_length, firstn_all in H. exact H.
Qed.

Definition initv (n : nat) (inf : R) : list R :=
  fold_left (fun v i => update v (i * n + i) 0) (seq 0 n) (repeat inf (n * n)).

Lemma initv_len_gen n l v : length (fold_left (fun v i => update v (i * n + i) 0) l v) = length v.
Proof. revert v. induction l; intros v; cbn; auto. rewrite IHl. apply update_length. Qed.
Lemma initv_len n inf : length (initv n inf) = (n * n)%nat.
Proof. unfold initv. rewrite initv_len_gen. apply repeat_length. Qed.

Lemma initv_at n inf i j : (i < n)%nat -> (j < n)%nat -> at_ n (initv n inf) i j = if i =? j then 0 else inf.
Proof.
  intros Hi Hj. unfold initv.
  assert (forall l v, length v = (n * n)%nat -> (forall a, In a l -> (a < n)%nat) ->
    at_ n (fold_left (fun v i => update v (i * n + i) 0) l v) i j =
      if (i =? j) && existsb (Nat.eqb i) l then 0 else at_ n v i j) as G.
  { induction l as [|a l IH]; intros v L Hl; cbn [fold_left existsb]; [now rewrite andb_false_r|].
    rewrite IH; [|now rewrite update_length|intros b Hb; apply Hl; cbn; auto].
    rewrite at_update by (auto; apply Hl; cbn; auto).
    destruct (Nat.eqb_spec i j) as [->|Hne]; cbn [andb].
    - destruct (Nat.eqb_spec j a); cbn; [now destruct (existsb _ l)|reflexivity].
    - destruct (Nat.eqb_spec i a), (Nat.eqb_spec j a); cbn; auto; congruence. }
  rewrite G; [|apply repeat_length|intros a Ha; apply in_seq in Ha; lia].
  destruct (Nat.eqb_spec i j) as [->|Hne]; cbn [andb].
  - assert (existsb (Nat.eqb j) (seq 0 n) = true) as ->; auto. apply existsb_exists. exists j.
    split; [apply in_seq; lia|apply Nat.eqb_refl].
  - unfold at_. rewrite (nth_indep _ 0 inf) by (rewrite repeat_length; now apply idx_lt). apply nth_repeat.
Qed.

Lemma repeat_holds env a v m : nth_error env a = Some v -> holds env (repeat a m) (repeat v m).
Proof. intros E. induction m; cbn; constructor; auto. Qed.

Lemma sem_init n inf env : bsem (fw_init Rops n inf) env (fun rs env' => holds env' rs (initv n inf)).
Proof.
  unfold fw_init. apply sem_bind, sem_const. intros _.
  apply (sem_for _ (fun done rs env => holds env rs (fold_left (fun v i => update v (i * n + i) 0) done (repeat inf (n * n))))).
  { apply repeat_holds, get_last. }
  intros done i rest rs env1 E H.
  assert (i < n)%nat as Hi.
  { assert (In i (seq 0 n)) as Hin by (rewrite E; apply in_or_app; cbn; auto). apply in_seq in Hin. lia. }
  apply sem_bind, sem_const. intros _. apply sem_set.
  { rewrite (holds_len _ _ _ H), initv_len_gen, repeat_length. now apply idx_lt. }
  rewrite fold_left_app. cbn [fold_left]. apply holds_update; [now apply holds_ext|apply get_last].
Qed.

Definition edgev (n : nat) (params : list R) (vs : list R) (e : edge) : list R :=
  let '(u, v, (l, top)) := e in
  let w := travel_time params l top in update (update vs (u * n + v) w) (v * n + u) w.

Lemma edgev_len n params l vs : length (fold_left (edgev n params) l vs) = length vs.
Proof.
  revert vs. induction l as [|[[u v] [k top]] l IH]; intros vs; cbn; auto. rewrite IH, !update_length. auto.
Qed.

Lemma sem_edge n params ls rs vs env e : length vs = (n * n)%nat -> street_ok n (length params) e ->
  lights_ok env ls params -> holds env rs vs ->
  bsem (fw_edge Rops n ls rs e) env (fun rs' env' => holds env' rs' (edgev n params vs e)).
Proof.
  destruct e as [[u v] [l top]]. intros L (Hu & Hv & Hl) HL H. cbn [fw_edge edgev].
  assert (exists tl, nth_error ls l = Some tl /\ light_ok env tl (nth l params 0)) as (tl & El & Hlo).
  { clear -HL Hl. revert l Hl. induction HL as [|a p ls ps Ha HL IH]; intros [|l] Hl; cbn in *; try lia; eauto.
    apply IH. lia. }
  rewrite El. destruct tl as [tb lr], Hlo as [Ht Hr]. cbn [fst snd] in Ht, Hr.
  assert (nth_error env (if top then tb else lr) = Some (share (nth l params 0) top)) as Hs by (destruct top; auto).
  apply sem_bind, sem_const. intros _.
  apply sem_bind. eapply (sem_bin BDiv); [cbn; tauto|ext|ext|]. intros _.
  apply sem_bind, sem_const. intros _.
  apply sem_bind. eapply (sem_bin BAdd); [cbn; tauto|ext|ext|]. intros _.
  unfold fw_set_edge. apply sem_bind, sem_set.
  { rewrite (holds_len _ _ _ H), L. now apply idx_lt. }
  intros _. apply sem_set.
  { rewrite update_length, (holds_len _ _ _ H), L. now apply idx_lt. }
  apply holds_update; [apply holds_update|]; try apply get_last. do 4 apply holds_ext. exact H.
Qed.

Lemma sem_edges n params ls rs vs env edges : length vs = (n * n)%nat -> Forall (street_ok n (length params)) edges ->
  lights_ok env ls params -> holds env rs vs ->
  bsem (b_for (fw_edge Rops n ls) edges rs) env (fun rs' env' => holds env' rs' (fold_left (edgev n params) edges vs)).
Proof.
  intros L He HL H. eapply sem_conseq.
  - apply (sem_for _ (fun done rs env => lights_ok env ls params /\ holds env rs (fold_left (edgev n params) done vs))).
    + split; auto.
    + intros done e rest rs1 env1 E [H1 H2]. rewrite fold_left_app. cbn [fold_left].
      eapply sem_conseq; [apply (sem_edge n params ls rs1 (fold_left (edgev n params) done vs)); [now rewrite edgev_len| |exact H1|exact H2]|].
      * rewrite Forall_forall in He. apply He. rewrite E. apply in_or_app. cbn. auto.
      * intros rs2 ext2 H3. split; [now apply lights_ext|exact H3].
  - intros rs2 ext2 [_ H2]. exact H2.
Qed.


Definition graphv (n : nat) (inf : R) (edges : list edge) (params : list R) : list R :=
  fold_left (edgev n params) edges (initv n inf).

Lemma graphv_at n inf (edges : list edge) params i j : Forall (street_ok n (length params)) edges -> (i < n)%nat -> (j < n)%nat ->
  at_ n (graphv n inf edges params) i j = street inf (streets params edges) i j.
Proof.
  intros He Hi Hj. unfold graphv, streets.
  induction edges as [|e edges IH] using rev_ind; [cbn; now apply initv_at|].
  apply Forall_app in He as [He He1]. inversion He1 as [|? ? Hok _]; subst.
  rewrite fold_left_app, map_app, rev_app_distr. cbn [fold_left map rev app].
  destruct e as [[u v] [l top]], Hok as (Hu & Hv & Hl). cbn [edgev street].
  assert (length (fold_left (edgev n params) edges (initv n inf)) = (n * n)%nat) as L.
  { rewrite edgev_len. apply initv_len. }
  rewrite at_update by (rewrite ?update_length; auto). rewrite at_update by auto. rewrite IH by auto.
  destruct (i =? u), (j =? v), (i =? v), (j =? u); cbn; reflexivity.
Qed.

Lemma graph_value n nl inf edges params : length params = nl -> Forall (street_ok n nl) edges ->
  v_eval Rops (fw_graph Rops n nl inf edges) params = Ok (graphv n inf edges params).
Proof.
  intros <- He. unfold v_eval, fw_graph. cbn [feval].
  apply (body_value (length params) _ params); [auto|].
  apply sem_bind. eapply sem_conseq; [apply sem_lights|]. intros ls e1 HL _.
  apply sem_bind. eapply sem_conseq; [apply sem_init|]. intros rs e2 Hi _.
  apply sem_edges; auto; [apply initv_len|now apply lights_ext].
Qed.

Lemma step_value n k v : length v = (n * n)%nat -> (k < n)%nat ->
  v_eval Rops (fw_step_fn n k) v = Ok (stepv n k v).
Proof.
  intros L Hk. unfold v_eval, fw_step_fn. cbn [feval]. apply (body_value (n * n) _ v); [auto|].
  apply sem_step; auto. rewrite <- L. apply seq_holds.
Qed.

(** ** The sum over all pairs of exits *)

Lemma badness_value n exits v : length v = (n * n)%nat -> Forall (fun u => (u < n)%nat) exits ->
  v_eval Rops (fw_badness_fn Rops n exits) v = Ok [sumsq (at_ n v) (list_prod exits exits)].
Proof.
  intros L He. unfold v_eval, fw_badness_fn. cbn [feval]. apply (body_value (n * n) _ v); [auto|].
  unfold fw_badness. apply sem_bind, sem_const. intros _. apply sem_bind. eapply sem_conseq.
  - apply (sem_for _ (fun done r env => (exists e, env = v ++ e) /\ nth_error env r = Some (sumsq (at_ n v) done))).
    + split; [eauto|]. apply get_last.
    + intros done [u w] rest r env E [(e & ->) H].
      assert (In (u, w) (list_prod exits exits)) as Hin by (rewrite E; apply in_or_app; cbn; auto).
      apply in_prod_iff in Hin as [Hu Hw]. rewrite Forall_forall in He. apply He in Hu, Hw.
      assert (nth_error v (u * n + w) = Some (at_ n v u w)) as Hv by now apply nth_at.
      unfold fw_get_edge. cbn [fst snd]. apply sem_bind.
      apply (sem_get _ _ (u * n + w)%nat).
      { rewrite (nth_error_nth' _ 0%nat) by (rewrite seq_length; now apply idx_lt).
        rewrite seq_nth by now apply idx_lt. reflexivity. }
      intros _. apply sem_bind. eapply (sem_bin BMul); [cbn; tauto|ext|ext|]. intros _.
      eapply (sem_bin BAdd); [cbn; tauto|ext|ext|].
      split; [exists (e ++ [sem2 BMul (at_ n v u w) (at_ n v u w)] ++ [sem2 BAdd (sumsq (at_ n v) done)
        (sem2 BMul (at_ n v u w) (at_ n v u w))]); now rewrite !app_assoc|].
      rewrite get_last. unfold sumsq. rewrite fold_left_app. reflexivity.
  - intros r ext [_ H] _. apply sem_ret. constructor; [exact H|constructor].
Qed.

(** ** Replaying *)
Lemma straight_graph n nl inf edges : straight_f (fw_graph Rops n nl inf edges).
Proof.
  apply straight_body. intros x.
  apply straight_bind; [apply straight_for; intros; apply straight_bind; [|intros; apply straight_ret]|].
  { unfold new_traffic_light. b_straight. }
  intros ls. apply straight_bind.
  { unfold fw_init. apply straight_bind; [apply straight_const|]. intro. apply straight_for. intros.
    apply straight_bind; [apply straight_const|intro; apply straight_set]. }
  intros rs. apply straight_for. intros s [[u v] [l top]]. cbn [fw_edge].
  destruct (nth_error ls l) as [[tb lr]|]; [|apply straight_abort]. unfold fw_set_edge.
  b_straight.
Qed.
Lemma straight_step n k : straight_f (fw_step_fn (F := R) n k).
Proof.
  apply straight_body. intros x. apply straight_for. intros s [i j]. unfold fw_cell.
  b_straight.
Qed.
Lemma straight_badness n exits : straight_f (fw_badness_fn Rops n exits).
Proof.
  apply straight_body. intros x. unfold fw_badness. apply straight_bind; [apply straight_const|]. intro.
  apply straight_bind; [apply straight_for; intros|intro; apply straight_ret]. unfold fw_get_edge.
  b_straight.
Qed.

(** A function recorded at zeros and replayed at x computes what it computes at x. *)
Lemma replay_value f n x y0 y w : straight_f f -> fn_n f = Ok n -> length x = n ->
  v_eval Rops f (repeat 0 n) = Ok y0 -> v_eval Rops f x = Ok y ->
  exists w', replay Rops f x w = Ok (y, w').
Proof.
  intros HS En Lx E0 E.
  assert (exists t w', fn_tape Rops f (repeat 0 n) w = Ok (t, w')) as (t & w' & HT).
  { apply record_iff. exists y0, w. rewrite eval_float_v, E0. reflexivity. }
  destruct (replay_float Rops f (repeat 0 n) w t w' x HT) as (t' & y' & Z & Y & EV); auto.
  { now rewrite repeat_length. }
  exists w'. unfold replay, record0, mbind, mlift. rewrite En. cbn [bind f_zero Rops]. rewrite HT, Z, Y.
  specialize (EV w). rewrite eval_float_v, E in EV. cbn in EV. injection EV as <-. reflexivity.
Qed.

Definition stepsv (n k : nat) (v : list R) : list R := fold_left (fun v k => stepv n k v) (seq 0 k) v.
Lemma stepv_len n k v : length (stepv n k v) = length v.
Proof. apply fold_len. Qed.
Lemma stepsv_len n k v : length (stepsv n k v) = length v.
Proof.
  unfold stepsv. generalize (seq 0 k) as l. intros l. revert v.
  induction l; intros v; cbn; auto. rewrite IHl. apply stepv_len.
Qed.

Lemma replay_steps n fs v w : length v = (n * n)%nat ->
  exists w', replay_all Rops (map (fw_step_fn n) (seq 0 n) ++ fs) v w = replay_all Rops fs (stepsv n n v) w'.
Proof.
  intros L. unfold stepsv.
  assert (forall l v w, length v = (n * n)%nat -> (forall k, In k l -> (k < n)%nat) ->
    exists w', replay_all Rops (map (fw_step_fn n) l ++ fs) v w =
      replay_all Rops fs (fold_left (fun v k => stepv n k v) l v) w') as G.
  { clear. induction l as [|k l IH]; intros v w L Hl; cbn [map app replay_all fold_left]; [eauto|].
    assert (k < n)%nat as Hk by (apply Hl; cbn; auto).
    destruct (replay_value (fw_step_fn n k) (n * n) v (stepv n k (repeat 0 (n * n)%nat)) (stepv n k v) w) as (w' & E);
      auto; [apply straight_step|apply step_value; auto; apply repeat_length|now apply step_value|].
    destruct (IH (stepv n k v) w') as (w2 & E2); [now rewrite stepv_len|intros; apply Hl; cbn; auto|].
    exists w2. unfold mbind at 1. rewrite E. exact E2. }
  apply G; auto. intros k Hk. apply in_seq in Hk. lia.
Qed.

Theorem steps_shortest n W v : no_negative_cycle n W -> length v = (n * n)%nat ->
  (forall i j, (i < n)%nat -> (j < n)%nat -> at_ n v i j = W i j) ->
  forall i j, (i < n)%nat -> (j < n)%nat -> shortest n W i j (at_ n (stepsv n n v) i j).
Proof.
  intros NN L HW.
  assert (forall k, (k <= n)%nat -> upto n W k (at_ n (stepsv n k v))) as G.
  { induction k as [|k IH]; intros Hk; [apply upto_0; auto|]. specialize (IH ltac:(lia)).
    assert (stepsv n (S k) v = stepv n k (stepsv n k v)) as ->.
    { unfold stepsv. rewrite seq_S, fold_left_app. reflexivity. }
    apply (upto_step n W k (at_ n (stepsv n k v))); auto.
    apply stepv_spec; auto; [now rewrite stepsv_len|].
    apply (NN k). apply IH; lia. }
  apply upto_shortest. apply G. lia.
Qed.

(** ** Weights are not negative *)
Lemma share_pos p top : 0 < share p top.
Proof.
  unfold share. set (q := Rmin (Rmax p (1 / 100)) (99 / 100)).
  assert (1 / 100 <= q <= 99 / 100) as Hq.
  { unfold q. split; [apply Rmin_glb; [apply Rmax_r|lra]|apply Rmin_r]. }
  destruct top; lra.
Qed.
Lemma travel_time_gt params l top : 1 < travel_time params l top.
Proof.
  unfold travel_time. pose proof (share_pos (nth l params 0) top) as H.
  assert (0 < 1 / share (nth l params 0) top); [|lra]. apply Rdiv_lt_0_compat; lra.
Qed.
Lemma street_nonneg inf params edges i j : 0 <= inf -> 0 <= street inf (streets params edges) i j.
Proof.
  intros Hi. unfold streets. generalize (rev_involutive edges). generalize (rev edges) as es.
  rewrite <- map_rev. intros es _. assert (forall es, 0 <= street inf (map (fun e : edge => let '(u, v, (l, top)) := e in (u, v, travel_time params l top)) es) i j) as G.
  { clear -Hi. induction es as [|[[u v] [l top]] es IH]; cbn; [destruct (i =? j); lra|].
    destruct ((i =? u) && (j =? v) || (i =? v) && (j =? u)); auto.
    pose proof (travel_time_gt params l top). lra. }
  apply G.
Qed.
Lemma nonneg_no_cycle n W : (forall i j, 0 <= W i j) -> no_negative_cycle n W.
Proof.
  intros H i w Hw. assert (forall i j w, walk n W i j w -> 0 <= w) as G; [|eauto].
  clear -H. intros i j w Hw. induction Hw; auto. specialize (H i m). lra.
Qed.

(** ** The example *)
Theorem fw_value_correct n nl inf edges exits params w :
  0 <= inf -> length params = nl -> Forall (street_ok n nl) edges -> Forall (fun u => (u < n)%nat) exits ->
  exists d w', (forall i j, (i < n)%nat -> (j < n)%nat ->
      shortest n (street inf (streets params edges)) i j (d i j)) /\
    fw_value Rops n nl inf edges exits params w = Ok (sumsq d (list_prod exits exits), w').
Proof.
  intros Hinf Lp He Hx. unfold fw_value, fw_stages. cbn [replay_all].
  destruct (replay_value (fw_graph Rops n nl inf edges) nl params
     (graphv n inf edges (repeat 0 nl)) (graphv n inf edges params) w) as (w1 & E1); auto.
  { apply straight_graph. }
  { apply graph_value; auto. apply repeat_length. }
  { apply graph_value; auto. }
  assert (length (graphv n inf edges params) = (n * n)%nat) as Lg.
  { unfold graphv. rewrite edgev_len. apply initv_len. }
  destruct (replay_steps n [fw_badness_fn Rops n exits] (graphv n inf edges params) w1 Lg) as (w2 & E2).
  set (v := stepsv n n (graphv n inf edges params)) in *.
  assert (length v = (n * n)%nat) as Lv by (unfold v; rewrite stepsv_len; auto).
  destruct (replay_value (fw_badness_fn Rops n exits) (n * n) v
    [sumsq (at_ n (repeat 0 (n * n)%nat)) (list_prod exits exits)] [sumsq (at_ n v) (list_prod exits exits)] w2) as (w3 & E3); auto.
  { apply straight_badness. }
  { apply badness_value; auto. apply repeat_length. }
  { now apply badness_value. }
  exists (at_ n v), w3. split.
  - intros i j Hi Hj. apply steps_shortest; auto.
    + apply nonneg_no_cycle. intros. now apply street_nonneg.
    + intros a b Ha Hb. apply graphv_at; auto. rewrite Lp. auto.
  - unfold mbind at 1. unfold mbind at 1. rewrite E1, E2. cbn [replay_all]. unfold mbind at 1. rewrite E3.
    unfold mret, mlift. reflexivity.
Qed.

Theorem fw_steps_correct n W v w : no_negative_cycle n W -> length v = (n * n)%nat ->
  (forall i j, (i < n)%nat -> (j < n)%nat -> at_ n v i j = W i j) ->
  exists v' w', replay_all Rops (map (fw_step_fn n) (seq 0 n)) v w = Ok (v', w') /\ length v' = (n * n)%nat /\
    forall i j, (i < n)%nat -> (j < n)%nat -> shortest n W i j (at_ n v' i j).
Proof.
  intros NN L HW. destruct (replay_steps n [] v w L) as (w' & E). rewrite app_nil_r in E.
  exists (stepsv n n v), w'. split; [exact E|]. split; [now rewrite stepsv_len|]. now apply steps_shortest.
Qed.

Lemma shortest_unique n W i j d d' : shortest n W i j d -> shortest n W i j d' -> d = d'.
Proof. intros [W1 L1] [W2 L2]. apply Rle_antisym; auto. Qed.

(** ** One street: what its sum of squares is, and its derivative *)
Definition one_street : list edge := [(0, 1, (0, true))]%nat.

Lemma one_street_value q w : / 100 <= q <= 99 / 100 ->
  exists w', fw_value Rops 2 1 10000 one_street [0; 1]%nat [q] w = Ok (2 * Rsqr (1 + / q), w').
Proof.
  intros Hq.
  destruct (fw_value_correct 2 1 10000 one_street [0; 1]%nat [q] w) as (d & w' & HD & E).
  - lra.
  - reflexivity.
  - repeat constructor.
  - repeat constructor.
  - exists w'. rewrite E. do 2 f_equal. unfold sumsq. cbn [list_prod map app fold_left fst snd].
    set (W := street 10000 (streets [q] one_street)) in HD.
    set (t := 1 + / q).
    assert (0 < / q) as Hp by (apply Rinv_0_lt_compat; lra).
    assert (/ q <= 100) as Hu.
    { replace 100 with (/ / 100) by (rewrite Rinv_inv; lra). apply Rle_Rinv; lra. }
    assert (forall i j, (i < 2)%nat -> (j < 2)%nat -> W i j = if (i =? j)%nat then 0 else t) as HW.
    { intros i j Hi Hj. unfold W, streets, one_street, travel_time, share. cbn [map rev app street nth].
      assert (Rmin (Rmax q (1 / 100)) (99 / 100) = q) as -> by (rewrite Rmax_left by lra; rewrite Rmin_left; lra).
      destruct i as [|[|]], j as [|[|]]; try lia; cbn; unfold t; lra. }
    assert (forall i j v, walk 2 W i j v -> (if (i =? j)%nat then 0 else t) <= v) as HL.
    { intros i j v Hw. induction Hw as [i j Hi Hj|i m j v Hi Hw IH]; [rewrite HW; auto; lra|].
      destruct (walk_lt _ _ _ _ _ Hw) as [Hm Hj]. rewrite HW by auto.
      destruct i as [|[|]], j as [|[|]], m as [|[|]]; try lia; cbn in *; unfold t in *; lra. }
    assert (forall i j, (i < 2)%nat -> (j < 2)%nat -> d i j = if (i =? j)%nat then 0 else t) as HV.
    { intros i j Hi Hj. apply (shortest_unique 2 W i j); [now apply HD|].
      split; [rewrite <- HW by auto; now constructor|]. apply HL. }
    rewrite !HV by lia. cbn. unfold Rsqr, t. ring.
Qed.

Lemma one_street_derivative : derivable_pt_lim (fun q => 2 * Rsqr (1 + / q)) (1 / 2) (-48).
Proof.
  replace (-48) with (2 * ((0 + - (1 / Rsqr (1 / 2))) * (1 + / (1 / 2)) + (1 + / (1 / 2)) * (0 + - (1 / Rsqr (1 / 2)))))
    by (unfold Rsqr; field).
  assert (derivable_pt_lim (fun q => / q) (1 / 2) (- (1 / Rsqr (1 / 2)))) as HI.
  { pose proof (derivable_pt_lim_div (fun _ => 1) (fun x => x) (1 / 2) 0 1
      (derivable_pt_lim_const 1 (1 / 2)) (derivable_pt_lim_id (1 / 2)) ltac:(lra)) as H.
    replace (- (1 / Rsqr (1 / 2))) with ((0 * (1 / 2) - 1 * 1) / Rsqr (1 / 2)) by (unfold Rsqr; field).
    eapply derivable_pt_lim_ext; [|exact H]. intros z. unfold div_fct. unfold Rdiv. ring. }
  assert (derivable_pt_lim (fun q => 1 + / q) (1 / 2) (0 + - (1 / Rsqr (1 / 2)))) as HP.
  { apply (derivable_pt_lim_plus (fun _ => 1) (fun q => / q)); [apply derivable_pt_lim_const|exact HI]. }
  apply (derivable_pt_lim_scal (fun q => Rsqr (1 + / q)) 2).
  apply (derivable_pt_lim_mult (fun q => 1 + / q) (fun q => 1 + / q)); exact HP.
Qed.

(** the gradient the example computes at 1/2 *)
Lemma one_street_gradient : exists w',
  fw_gradient d64 (@concat _) (fun k _ => Z.max 1 (k / 2)) 2 1 (lit 10000) one_street [0; 1]%nat
    [f_div d64 (f_one d64) (lit 2)] world0 = Ok (mkM 1 1 [[lit (-24)]], w').
Proof. eexists. vm_compute. reflexivity. Qed.
