(** The stages of the shortest-path example in every arithmetic: nothing panics. *)
From Coq Require Import List Arith ZArith NArith Bool Lia.
From Verif Require Import Base Float Operation Tape AContext Methods Function Spec TapeFacts
  Param Instances FunctionFacts RecordFacts ReplayFacts Replay2 Shape Matrix MatrixFacts Jacobian JacobianFacts
  AbsNormal Checkpoint CheckSpec CheckMain GenJac DriverSpec DriverPanics Build PairBuild BuildRange
  Programs FloydSpec FloydFacts FloydGrad Descent FloydLoop.
Import ListNotations.

Section Total.
Context {F : Type} (Fo : Fops F).

(** ** The bodies *)
Lemma set_edge_range n dm u v a r : length dm = n * n -> u < n -> v < n -> a < r -> Forall (fun a => a < r) dm ->
  rsem (F := F) (fw_set_edge n dm u v a) r (fun dm' r' => length dm' = n * n /\ Forall (fun a => a < r') dm').
Proof.
  intros L Hu Hv Ha H. unfold fw_set_edge. apply rsem_bind, rsem_set; [rewrite L; now apply idx_lt|]. intros _.
  apply rsem_set; [rewrite update_length, L; now apply idx_lt|]. rewrite !update_length. split; [auto|].
  now repeat apply lt_update.
Qed.

Lemma init_range n inf r : rsem (fw_init Fo n inf) r (fun dm r' => length dm = n * n /\ Forall (fun a => a < r') dm).
Proof.
  unfold fw_init. apply rsem_bind, rsem_const. intros _.
  apply (rsem_for _ (fun dm r' => length dm = n * n /\ Forall (fun a => a < r') dm)).
  - rewrite repeat_length. split; [auto|]. apply Forall_forall. intros a Ha. apply repeat_spec in Ha. lia.
  - intros i dm r' Hi [L H]. apply in_seq in Hi. apply rsem_bind, rsem_const. intros _.
    apply rsem_set; [rewrite L; apply idx_lt; lia|]. rewrite update_length. split; [auto|].
    apply lt_update; [lia|]. eapply lt_mono; [|exact H]. lia.
Qed.

Definition lt_pairs (r : nat) (ls : list (nat * nat)) : Prop := Forall (fun l => fst l < r /\ snd l < r) ls.
Lemma lt_pairs_mono r r' ls : r <= r' -> lt_pairs r ls -> lt_pairs r' ls.
Proof. intros L. apply Forall_impl. intros; lia. Qed.

Lemma light_range q r : q < r -> rsem (new_traffic_light Fo q) r (fun l r' => fst l < r' /\ snd l < r').
Proof.
  intros Hq. unfold new_traffic_light.
  apply rsem_bind, rsem_const. intros _. apply rsem_bind, rsem_bin; [discriminate|lia|lia|]. intros _.
  apply rsem_bind, rsem_const. intros _. apply rsem_bind, rsem_bin; [discriminate|lia|lia|]. intros _.
  apply rsem_bind, rsem_const. intros _. apply rsem_bind, rsem_bin; [discriminate|lia|lia|]. intros _.
  apply rsem_ret. cbn. lia.
Qed.

Lemma lights_range n : rsem (b_for (fun ls q => l <b new_traffic_light Fo q ;; b_ret (ls ++ [l])) (seq 0 n) []) n
  (fun ls r' => length ls = n /\ lt_pairs r' ls).
Proof.
  assert (forall l ls r, Forall (fun q => q < r) l -> lt_pairs r ls ->
    rsem (b_for (fun ls q => l <b new_traffic_light Fo q ;; b_ret (ls ++ [l])) l ls) r
      (fun ls' r' => length ls' = length ls + length l /\ lt_pairs r' ls')) as G.
  { induction l as [|q l IH]; intros ls r Hl Hls; cbn [b_for].
    - apply rsem_ret. cbn. split; [lia|auto].
    - inversion Hl; subst. apply rsem_bind, rsem_bind. eapply rsem_conseq; [apply light_range; auto|].
      intros lt r' Lr Hlt _. apply rsem_ret. intros _. eapply rsem_conseq; [apply IH|].
      + eapply lt_mono; eauto.
      + apply Forall_app. split; [eapply lt_pairs_mono; eauto|]. constructor; auto.
      + intros a r'' _ [L1 L2]. rewrite app_length in L1. cbn in *. split; [lia|auto]. }
  eapply rsem_conseq; [apply (G (seq 0 n) [] n)|].
  - apply Forall_forall. intros a Ha. apply in_seq in Ha. lia.
  - constructor.
  - intros ls r' _ [L H]. rewrite seq_length in L. auto.
Qed.

Lemma edge_range n nl ls dm r (e : edge) : street_ok n nl e -> length ls = nl -> lt_pairs r ls ->
  length dm = n * n -> Forall (fun a => a < r) dm ->
  rsem (fw_edge Fo n ls dm e) r (fun dm' r' => length dm' = n * n /\ Forall (fun a => a < r') dm').
Proof.
  destruct e as [[u v] [l top]]. intros (Hu & Hv & Hl) Ll Hls Ld Hd. cbn [fw_edge].
  destruct (nth_error ls l) as [[tb lr]|] eqn:E; [|apply nth_error_None in E; lia].
  assert (tb < r /\ lr < r) as [Ht Hlr].
  { unfold lt_pairs in Hls. rewrite Forall_forall in Hls. apply (Hls (tb, lr)). eapply nth_error_In; eauto. }
  apply rsem_bind, rsem_const. intros _. apply rsem_bind, rsem_bin; [discriminate|lia|destruct top; lia|]. intros _.
  apply rsem_bind, rsem_const. intros _. apply rsem_bind, rsem_bin; [discriminate|lia|lia|]. intros _.
  apply set_edge_range; auto; [lia|]. eapply lt_mono; [|exact Hd]. lia.
Qed.

Lemma graph_fits n nl inf edges : Forall (street_ok n nl) edges -> exists p, fw_graph Fo n nl inf edges = Simple nl (n * n) p /\
  fits nl p /\ length (rets p) = n * n.
Proof.
  intros He. eexists. split; [reflexivity|].
  apply (body_fits nl _ (fun outs => length outs = n * n)).
  apply rsem_bind. eapply rsem_conseq; [apply lights_range|]. intros ls r Lr [Ll Hls] _.
  apply rsem_bind. eapply rsem_conseq; [apply init_range|]. intros dm r1 Lr1 [Ld Hd] _.
  eapply rsem_conseq.
  - apply (rsem_for _ (fun dm r' => r1 <= r' /\ length dm = n * n /\ Forall (fun a => a < r') dm)); [auto|].
    intros e dm1 r2 Hin (L2 & Ld1 & Hd1).
    eapply rsem_conseq; [apply (edge_range n nl); auto|].
    + rewrite Forall_forall in He. auto.
    + eapply lt_pairs_mono; [|exact Hls]. lia.
    + intros dm' r' Lr' [A B]. split; [lia|auto].
  - intros dm' r' _ (_ & A & B). auto.
Qed.

Lemma step_fits n k : k < n -> exists p, fw_step_fn (F := F) n k = Simple (n * n) (n * n) p /\ fits (n * n) p /\ length (rets p) = n * n.
Proof.
  intros Hk. eexists. split; [reflexivity|].
  apply (body_fits (n * n) _ (fun outs => length outs = n * n)). unfold fw_step.
  eapply rsem_conseq.
  - apply (rsem_for _ (fun dm r' => length dm = n * n /\ Forall (fun a => a < r') dm)).
    + rewrite seq_length. split; [auto|]. apply Forall_forall. intros a Ha. apply in_seq in Ha. lia.
    + intros [i j] dm r Hin [L H]. apply in_prod_iff in Hin as [Hi Hj]. apply in_seq in Hi, Hj.
      unfold fw_cell.
      apply rsem_bind, rsem_get; [rewrite L; apply idx_lt; lia|]. intros d Hd _.
      apply rsem_bind, rsem_get; [rewrite L; apply idx_lt; lia|]. intros a Ha _.
      apply rsem_bind, rsem_get; [rewrite L; apply idx_lt; lia|]. intros b Hb _.
      pose proof (lt_nth _ _ _ _ H Hd). pose proof (lt_nth _ _ _ _ H Ha). pose proof (lt_nth _ _ _ _ H Hb).
      apply rsem_bind, rsem_bin; [discriminate|lia|lia|]. intros _.
      apply rsem_bind, rsem_bin; [discriminate|lia|lia|]. intros _.
      apply rsem_set; [rewrite L; apply idx_lt; lia|]. rewrite update_length. split; [auto|].
      apply lt_update; [lia|]. eapply lt_mono; [|exact H]. lia.
  - intros dm r _ [A B]. auto.
Qed.

Lemma badness_fits n exits : Forall (fun u => u < n) exits ->
  exists p, fw_badness_fn Fo n exits = Simple (n * n) 1 p /\ fits (n * n) p /\ length (rets p) = 1.
Proof.
  intros He. eexists. split; [reflexivity|].
  apply (body_fits (n * n) _ (fun outs => length outs = 1)). unfold fw_badness.
  apply rsem_bind, rsem_const. intros _. apply rsem_bind. eapply rsem_conseq.
  - apply (rsem_for _ (fun s r' => n * n <= r' /\ s < r')); [lia|].
    intros [u v] s r Hin [L H]. apply in_prod_iff in Hin as [Hu Hv]. rewrite Forall_forall in He.
    unfold fw_get_edge. apply rsem_bind, rsem_get; [rewrite seq_length; apply idx_lt; cbn; auto|]. intros d Hd _.
    assert (d < n * n). { apply nth_error_In in Hd. apply in_seq in Hd. lia. }
    apply rsem_bind, rsem_bin; [discriminate|lia|lia|]. intros _.
    apply rsem_bin; [discriminate|lia|lia|]. lia.
  - intros s r _ [L H] _. apply rsem_ret. split; [repeat constructor; lia|reflexivity].
Qed.

(** ** A stage *)
Lemma stage_value n m p x : fits n p -> length x = n -> exists y, v_eval Fo (Simple n m p) x = Ok y /\ length y = length (rets p).
Proof.
  intros H <-. unfold v_eval. cbn [feval]. destruct (fits_run Fo p x H) as (ys & E & L). rewrite E. cbn. eauto.
Qed.

Lemma stage_tape n m p x : fits n p -> length x = n -> exists t0 w0 t w', fn_tape Fo (Simple n m p) (repeat (f_zero Fo) n) world0 = Ok (t0, w0) /\
  fn_tape Fo (Simple n m p) x world0 = Ok (t, w') /\ tape_zero_order Fo t0 x = Ok t /\
  wf_tape t /\ num_indeps t = n /\ num_deps t = length (rets p) /\
  exists y, v_eval Fo (Simple n m p) x = Ok y /\ tape_y t = Ok y /\ length y = length (rets p).
Proof.
  intros H L. destruct (stage_value n m p (repeat (f_zero Fo) n) H (repeat_length _ _)) as (y0 & E0 & _).
  destruct (stage_value n m p x H L) as (y & E & Ly).
  pose proof (fn_tape_total Fo (Simple n m p) (repeat (f_zero Fo) n) world0) as T0. rewrite E0 in T0. destruct T0 as (t0 & w0 & T0).
  destruct (replay_is_record Fo _ _ _ _ _ x world0 T0) as (t & w' & T & Z).
  { now rewrite repeat_length. } { left. cbn. eapply fits_straight; eauto. }
  destruct (fn_tape_wf Fo _ _ _ _ _ T) as ([W _] & _).
  destruct (fn_tape_fresh Fo _ _ _ _ _ T) as (_ & (y' & Hv & Hy & Hm) & Hn & _).
  assert (y' = y) as -> by congruence.
  exists t0, w0, t, w'. do 4 (split; [auto|]). split; [congruence|]. split; [congruence|]. eauto.
Qed.

Lemma replay_total n m p x : fits n p -> length x = n ->
  exists y, length y = length (rets p) /\ forall w, exists w', replay Fo (Simple n m p) x w = Ok (y, w').
Proof.
  intros H L. destruct (stage_tape n m p x H L) as (t0 & w0 & t & w' & T0 & _ & Z & _ & _ & _ & y & _ & Hy & Ly).
  exists y. split; [auto|]. intros w. unfold replay, mbind, mlift.
  pose proof (record0_world Fo (Simple n m p) world0 w) as R. unfold record0 at 1, mbind, mlift in R. cbn [fn_n] in R. rewrite T0 in R.
  destruct R as (w2 & ->). rewrite Z, Hy. eauto.
Qed.

Lemma fwp_total stages i n m p x : nth_error stages i = Some (Simple n m p) -> fits n p -> length x = n ->
  exists y, length y = length (rets p) /\ fwp Fo stages (i, x) = Ok (i + 1, y).
Proof.
  intros Ei H L. destruct (replay_total n m p x H L) as (y & Ly & R). exists y. split; [auto|].
  unfold fwp. cbn [fst snd]. unfold mbind, mlift. rewrite Ei. cbn [unwrap]. destruct (R world0) as (w' & ->). reflexivity.
Qed.

Context (red : list (list (nat * list F)) -> list (nat * list F)) (HR : rayon red).

Definition row_gjac (g : gjac F) (c : nat) : Prop :=
  wf_mat (g_hom g) /\ m_rows (g_hom g) = 1 /\ m_cols (g_hom g) = c /\ length (g_inh g) = 1.

Lemma rvp_total stages i n m p x g : nth_error stages i = Some (Simple n m p) -> fits n p -> length x = n ->
  row_gjac g (length (rets p)) -> exists G, rvp Fo red stages (i, x) g = Ok G /\ row_gjac G n.
Proof.
  intros Ei H L (Wg & Rg & Cg & Lg). destruct (stage_tape n m p x H L) as (t0 & w0 & t & w' & T0 & _ & Z & W & Ni & Nd & _).
  destruct (gj_tape_total Fo red HR t (repeat (f_zero Fo) (length x)) [0%N] (Some g)) as (G & EG & WG & RG & CG & LG & _); auto.
  { rewrite repeat_length. lia. } { cbn. split; lia. }
  cbn [rows_out] in *. exists G. split; [|repeat split; try congruence; auto; apply WG].
  unfold rvp. cbn [fst snd]. unfold mbind, mlift. rewrite Ei. cbn [unwrap]. unfold record0, mbind, mlift. cbn [fn_n].
  rewrite T0, Z, EG. reflexivity.
Qed.

(** ** All stages *)
Context (n nl : nat) (inf : F) (edges : list edge) (exits : list nat).
Context (He : Forall (street_ok n nl) edges) (Hx : Forall (fun u => u < n) exits).
Let stages := fw_stages Fo n nl inf edges exits.

Lemma nth_stage k : k < n -> nth_error stages (k + 1) = Some (fw_step_fn n k).
Proof.
  intros Hk. unfold stages, fw_stages. rewrite Nat.add_comm. cbn [nth_error Nat.add].
  rewrite nth_error_app1 by (rewrite map_length, seq_length; auto).
  rewrite nth_error_map. rewrite (nth_error_nth' (seq 0 n) 0) by (rewrite seq_length; auto).
  rewrite seq_nth by auto. reflexivity.
Qed.
Lemma nth_stage_last : nth_error stages (n + 1) = Some (fw_badness_fn Fo n exits).
Proof.
  unfold stages, fw_stages. rewrite Nat.add_comm. cbn [nth_error Nat.add].
  rewrite nth_error_app2 by (rewrite map_length, seq_length; auto).
  rewrite map_length, seq_length, Nat.sub_diag. reflexivity.
Qed.

Let idg := fun _ : nat * list F => Ok (mkG (m_id Fo 1) [f_zero Fo] 0).

Lemma sweep_total m : forall k x, k + m = n -> length x = n * n ->
  exists G, reverse_fold (fwp Fo stages) (rvp Fo red stages) idg (m + 1) (k + 1, x) = Ok G /\ row_gjac G (n * n).
Proof.
  induction m as [|m IH]; intros k x Hk Lx.
  - assert (k = n) as -> by lia. cbn [reverse_fold Nat.add].
    destruct (badness_fits n exits Hx) as (p & Ep & Hp & Lp). pose proof nth_stage_last as Es. rewrite Ep in Es.
    destruct (fwp_total stages (n + 1) _ _ p x Es Hp Lx) as (y & Ly & ->). cbn [bind]. unfold idg at 1. cbn [bind].
    apply (rvp_total stages (n + 1) _ _ p x _ Es Hp Lx). rewrite Lp.
    split; [apply m_tab_wf|]. repeat split; reflexivity.
  - cbn [Nat.add reverse_fold]. assert (k < n) as Hkn by lia.
    destruct (step_fits n k Hkn) as (p & Ep & Hp & Lp). pose proof (nth_stage k Hkn) as Es. rewrite Ep in Es.
    destruct (fwp_total stages (k + 1) _ _ p x Es Hp Lx) as (y & Ly & ->). cbn [bind].
    destruct (IH (S k) y) as (g & Eg & Hg); [lia|congruence|].
    replace (k + 1 + 1) with (S k + 1) by lia. rewrite Eg. cbn [bind].
    apply (rvp_total stages (k + 1) _ _ p x g Es Hp Lx). rewrite Lp. exact Hg.
Qed.

Theorem gradient_total est : accurate est (Z.of_nat (n + 2) + 1) -> (Z.of_nat (n + 2) + 1 <= 2 ^ 32)%Z -> 2 <= n ->
  forall params, length params = nl -> exists g, length g = nl /\
    forall w, exists w', fw_grad Fo red est n nl inf edges exits params w = Ok (g, w').
Proof.
  intros HA HN Hn params Lp.
  destruct (graph_fits n nl inf edges He) as (p & Ep & Hp & Lr).
  assert (nth_error stages 0 = Some (Simple nl (n * n) p)) as Es by (rewrite <- Ep; reflexivity).
  destruct (fwp_total stages 0 _ _ p params Es Hp Lp) as (y & Ly & Ey).
  destruct (sweep_total n 0 y) as (g & Eg & Hg); [lia|congruence|].
  destruct (rvp_total stages 0 _ _ p params g Es Hp Lp) as (G & EG & WG & RG & CG & LG); [now rewrite Lr|].
  assert (reverse_fold (fwp Fo stages) (rvp Fo red stages) idg (n + 2) (0, params) = Ok G) as EF.
  { replace (n + 2) with (S (n + 1)) by lia. cbn [reverse_fold]. rewrite Ey. cbn [bind].
    change (0 + 1) with 1 in *. rewrite Eg. cbn [bind]. exact EG. }
  exists (map (fun row => nth 0 row (f_zero Fo)) (m_dat (m_tab nl 1 (fun i j => ent Fo (g_hom G) j i)))). split.
  - rewrite map_length. apply (proj1 (m_tab_wf nl 1 (fun i j => ent Fo (g_hom G) j i))).
  - intros w. pose proof (fw_gradient_fold Fo red est n nl inf edges exits params w HA HN Hn) as HF.
    fold stages in HF. fold idg in HF. rewrite EF in HF. destruct HF as (w' & HF). rewrite RG, CG in HF.
    exists w'. unfold fw_grad. rewrite (mbind_ok _ _ _ _ _ HF). reflexivity.
Qed.

Theorem value_total params : length params = nl -> exists e, forall w, exists w', fw_value Fo n nl inf edges exits params w = Ok (e, w').
Proof.
  intros Lp.
  assert (forall l x, Forall (fun k => k < n) l -> length x = n * n -> exists e, forall w, exists w',
     replay_all Fo (map (fw_step_fn n) l ++ [fw_badness_fn Fo n exits]) x w = Ok ([e], w')) as G.
  { induction l as [|k l IH]; intros x Hl Lx; cbn [map app replay_all].
    - destruct (badness_fits n exits Hx) as (p & -> & Hp & Lr).
      destruct (replay_total _ 1 p x Hp Lx) as (y & Ly & R). rewrite Lr in Ly. destruct y as [|e [|]]; try discriminate.
      exists e. intros w. destruct (R w) as (w' & E). exists w'. rewrite (mbind_ok _ _ _ _ _ E). reflexivity.
    - inversion Hl; subst. destruct (step_fits n k) as (p & -> & Hp & Lr); [auto|].
      destruct (replay_total _ (n * n) p x Hp Lx) as (y & Ly & R). destruct (IH y) as (e & He'); [auto|congruence|].
      exists e. intros w. destruct (R w) as (w1 & E). destruct (He' w1) as (w2 & E2). exists w2.
      rewrite (mbind_ok _ _ _ _ _ E). exact E2. }
  destruct (graph_fits n nl inf edges He) as (p & Ep & Hp & Lr).
  destruct (replay_total _ (n * n) p params Hp Lp) as (y & Ly & R).
  destruct (G (seq 0 n) y) as (e & He').
  { apply Forall_forall. intros k Hk. apply in_seq in Hk. lia. } { congruence. }
  exists e. intros w. destruct (R w) as (w1 & E1). destruct (He' w1) as (w2 & E2). exists w2.
  assert (replay_all Fo (fw_stages Fo n nl inf edges exits) params w = Ok ([e], w2)) as E.
  { unfold fw_stages. cbn [replay_all]. rewrite Ep, (mbind_ok _ _ _ _ _ E1). exact E2. }
  unfold fw_value. rewrite (mbind_ok _ _ _ _ _ E). reflexivity.
Qed.
End Total.
