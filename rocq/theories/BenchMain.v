(** The benchmark functions: the products of L, the generalized Jacobian. *)
From Coq Require Import Reals Lra List Arith ZArith NArith Bool Lia.
From Verif Require Import Base Float Operation Tape AContext Methods Function Spec TapeFacts AContextFacts RealInst Param Instances
  FunctionFacts RecordFacts ReplayFacts Replay2 Shape MethodSpec MethodFacts DerivSpec DerivFacts DerivFacts2 Matrix MatrixFacts AbsNormal AbsNormalFacts
  AnfSpec RVec AnfFacts AnfFacts2 Checkpoint CheckSpec CheckMain GenJac GenSpec GenFacts GenMain GenExplicit DriverSpec
  TapeShape OnceMain StraightSpec LimitSpec SwitchSpec SwitchFacts SwitchMain SwitchChain
  Build BuildFacts BuildRange PairBuild BuildSem UnitFacts UnitTests Benches BenchFacts.
Import ListNotations.
Open Scope nat_scope.

(** ** Products *)
Lemma lazy_straight {F : Type} (Fo : Fops F) n : straight_f (bench_lazy Fo n).
Proof.
  unfold bench_lazy. cbn [straight_f]. apply straight_body. intros x. b_straight.
  apply straight_for. intros. unfold at_least_zero, at_most_one. b_straight.
Qed.

(** ** Nothing is returned twice *)
Lemma map_range {F : Type} f rs r : Forall (fun a => a < r) rs ->
  (forall e r, e < r -> rsem (f e) r (fun b r' => r <= b < r')) ->
  rsem (b_map (F := F) f rs) r (fun out r' => NoDup out /\ length out = length rs /\ Forall (fun a => a < r') out).
Proof.
  intros HR Hf. unfold b_map.
  assert (forall l outs r0, r <= r0 -> Forall (fun a => a < r) l -> NoDup outs -> Forall (fun a => a < r0) outs ->
    rsem (b_for (fun out a => b <b f a ;; b_ret (out ++ [b])) l outs) r0
      (fun out r' => NoDup out /\ length out = length outs + length l /\ Forall (fun a => a < r') out)) as G.
  { induction l as [|e l IH]; intros outs r0 L Hl ND HO; cbn [b_for].
    - apply rsem_ret. cbn. rewrite Nat.add_0_r. auto.
    - inversion Hl; subst. apply rsem_bind, rsem_bind. eapply rsem_conseq; [apply Hf; lia|].
      intros b r1 L1 Hb _. cbv beta in Hb. apply rsem_ret. intros _.
      eapply rsem_conseq; [apply (IH (outs ++ [b]) r1); auto; try lia|].
      + apply NoDup_append; auto; [repeat constructor; cbn; tauto|]. intros a Ha [<-|[]].
        rewrite Forall_forall in HO. specialize (HO _ Ha). cbv beta in HO. lia.
      + apply Forall_app. split; [eapply lt_mono; [|exact HO]; lia|constructor; [lia|constructor]].
      + intros out r' _ (A & B & C). split; [auto|]. rewrite B, app_length. cbn. split; [lia|auto]. }
  eapply rsem_conseq; [apply (G rs [] r); auto; constructor|]. intros out r' _ (A & B & C). auto.
Qed.
Lemma zero_range {F : Type} (Fo : Fops F) e r : e < r -> rsem (at_least_zero Fo e) r (fun b r' => r <= b < r').
Proof. intros H. apply rsem_bind, rsem_const. intros _. apply rsem_bin; [discriminate|lia|lia|lia]. Qed.
Lemma one_range {F : Type} (Fo : Fops F) e r : e < r -> rsem (at_most_one Fo e) r (fun b r' => r <= b < r').
Proof. intros H. apply rsem_bind, rsem_const. intros _. apply rsem_bin; [discriminate|lia|lia|lia]. Qed.
Lemma seq_range n : Forall (fun a => a < n) (seq 0 n).
Proof. apply Forall_forall. intros a Ha. apply in_seq in Ha. lia. Qed.

Lemma quiet_map {F : Type} f x : (forall a, b_quiet (F := F) (f a)) -> b_quiet (b_map f x).
Proof. intros H. apply quiet_for. intros. apply quiet_bind; [apply H|intro; apply quiet_ret]. Qed.

Lemma lazy_once {F : Type} (Fo : Fops F) n : once_f (bench_lazy Fo n).
Proof.
  cbn [bench_lazy once_f]. apply quiet_once.
  - apply quiet_body. intros x. b_quiet. apply quiet_for. intros. unfold at_least_zero, at_most_one. b_quiet.
  - eapply (body_fits n _ (@NoDup nat)). apply rsem_bind, rsem_const. intros _. apply rsem_bind. eapply rsem_conseq.
    + apply (rsem_for _ (fun a r => n <= r /\ a < r)); [lia|]. intros e a r He [Hn Ha]. apply in_seq in He.
      apply rsem_bind. eapply rsem_conseq; [apply zero_range; lia|]. intros l r1 L1 H1 _. cbv beta in H1.
      apply rsem_bind. eapply rsem_conseq; [apply one_range; lia|]. intros b r2 L2 H2 _. cbv beta in H2.
      apply rsem_bin; [discriminate|lia|lia|lia].
    + intros a r L [Hn Ha] _. apply rsem_ret. split; [constructor; [auto|constructor]|repeat constructor; cbn; tauto].
Qed.
Lemma eager_once {F : Type} (Fo : Fops F) n : once_f (bench_eager Fo n).
Proof.
  cbn [bench_eager once_f]. apply quiet_once.
  - apply quiet_body. intros x. apply quiet_bind; [apply quiet_map; intros; unfold at_least_zero; b_quiet|intro].
    apply quiet_bind; [apply quiet_map; intros; unfold at_most_one; b_quiet|intro]. b_quiet.
    apply quiet_for. intros. b_quiet.
  - eapply (body_fits n _ (@NoDup nat)). apply rsem_bind. eapply rsem_conseq; [apply map_range; [apply seq_range|apply zero_range]|].
    intros l r L (_ & _ & Hl) _. apply rsem_bind. eapply rsem_conseq; [apply map_range; [exact Hl|apply one_range]|].
    intros b r1 L1 (_ & _ & Hb) _. apply rsem_bind, rsem_const. intros _. apply rsem_bind. eapply rsem_conseq.
    + apply (rsem_for _ (fun a r => r1 <= r /\ a < r)); [lia|]. intros e a r2 He [Hn Ha].
      rewrite Forall_forall in Hb. apply Hb in He. cbv beta in He. apply rsem_bin; [discriminate|lia|lia|lia].
    + intros a r2 _ [Hn Ha] _. apply rsem_ret. split; [constructor; [auto|constructor]|repeat constructor; cbn; tauto].
Qed.
Lemma propagate_once {F : Type} (Fo : Fops F) n : once_f (bench_propagate Fo n).
Proof.
  cbn [bench_propagate once_f]. apply quiet_once.
  - apply quiet_body. intros x. apply quiet_map. intros; unfold at_least_zero; b_quiet.
  - eapply (body_fits n _ (@NoDup nat)). eapply rsem_conseq; [apply map_range; [apply seq_range|apply zero_range]|].
    intros l r L (A & _ & Hl). auto.
Qed.

Section Products.
Context {F : Type} (Fo : Fops F).
Lemma bench_tape n w : exists t w' t0, fn_tape Fo (bench_lazy Fo n) (repeat (f_zero Fo) n) w = Ok (t0, w') /\
  num_indeps t0 = n /\ tape_zero_order Fo t0 (repeat (f_one Fo) n) = Ok t /\ wf_tape t /\
  num_indeps t = n /\ num_deps t = 1 /\ num_abs t = 3 * n.
Proof.
  destruct (lazy_tape Fo n (repeat (f_zero Fo) n) w (repeat_length _ _)) as (t0 & w' & E0 & Ni & _ & _).
  destruct (replay_is_record Fo _ _ _ _ _ (repeat (f_one Fo) n) w E0) as (t & w1 & ET & EZ).
  { now rewrite !repeat_length. } { left. apply lazy_straight. }
  destruct (lazy_tape Fo n (repeat (f_one Fo) n) w (repeat_length _ _)) as (t' & w2 & E & A & B & C).
  assert (t' = t) as -> by congruence.
  destruct (fn_tape_wf Fo _ _ _ _ _ ET) as ([W _] & _). exists t, w', t0. auto 9.
Qed.

Theorem products_total red n w : rayon red -> exists l r w', bench_products Fo red n w = Ok ((l, r), w') /\
  wf_mat l /\ m_rows l = 1 /\ m_cols l = 3 * n /\ wf_mat r /\ m_rows r = 3 * n /\ m_cols r = 1.
Proof.
  intros HR. destruct (bench_tape n w) as (t & w' & t0 & E0 & Ni0 & EZ & W & Ni & Nd & Na).
  destruct (an_new_ok t W) as (args & EA & EN). set (a := mkAN _ _ _ _ _ _) in EN.
  destruct (sub_tapes t a args EN EA) as (_ & Tl & _).
  pose proof (sub_l t W args EA) as Sl. rewrite <- Tl in Sl. pose proof (sub_of_wf t W _ Sl) as Wl.
  assert (num_indeps (l_tape a) = num_abs t) as N1 by (rewrite Tl; apply abs_ids_length).
  assert (num_deps (l_tape a) = num_abs t) as N2 by (rewrite Tl; apply mapM_ok_length in EA; exact EA).
  destruct (mul_left_total Fo red HR (l_tape a) (m_const 1 (num_abs t) (f_one Fo)) Wl (sub_of_ops t _ Sl)) as (l & El & Wll & Rl & Cl);
    [rewrite m_const_tab; apply m_tab_wf|symmetry; exact N2|].
  destruct (mul_right_total Fo red HR (l_tape a) (m_const (num_abs t) 1 (f_one Fo)) Wl) as (r & Er & Wr & Rr & Cr);
    [rewrite m_const_tab; apply m_tab_wf|symmetry; exact N1|].
  exists l, r, w'. split.
  - unfold bench_products, mbind, mlift. rewrite E0, Ni0, EZ, EN, El, Er. reflexivity.
  - rewrite <- Na. cbn in Rl, Cr. repeat split; try apply Wll; try apply Wr; congruence.
Qed.
End Products.

(** over the reals: the products of the matrix L of the abs-normal form *)
Lemma once_anf t f x w w' : once_f f -> fn_tape Rops f x w = Ok (t, w') -> NoDup (t_deps t) /\ abs_once t /\
  (forall args, abs_args t = Ok args -> NoDup args).
Proof.
  intros HO HT. destruct (once_shape Rops f x w t w' HO HT) as [A B]. split; [auto|]. split; [auto|].
  intros args EA. eapply abs_args_nodup; eauto.
Qed.

Theorem products_value red n w : rayon red -> exists t w' N l r,
  fn_tape Rops (bench_lazy Rops n) (repeat 1%R n) w = Ok (t, w') /\ abs_normal_tape Rops red t = Ok N /\ anf_of t N /\
  strictly_lower (f_lmat N) /\
  (exists w2, bench_products Rops red n w = Ok ((l, r), w2)) /\
  l = mm (m_const 1 (3 * n) 1%R) (f_lmat N) /\ r = mm (f_lmat N) (m_const (3 * n) 1 1%R).
Proof.
  intros HR. destruct (bench_tape Rops n w) as (t & w' & t0 & E0 & Ni0 & EZ & W & Ni & Nd & Na).
  destruct (replay_is_record Rops _ _ _ _ _ (repeat 1%R n) w E0) as (t1 & w1 & ET & EZ1).
  { now rewrite !repeat_length. } { left. apply lazy_straight. }
  cbn [f_one Rops] in EZ. assert (t1 = t) as -> by congruence.
  destruct (once_anf t _ _ _ _ (lazy_once Rops n) ET) as (ND & AO & NA).
  destruct (abs_normal_tape_correct red HR t W ND NA) as (N & EN & HN).
  pose proof HN as [(a & z & Ea & Ez & _ & Rl & _)].
  destruct (subtapes_ok t a W Ea) as (HS & _ & _ & N3 & N4 & _).
  destruct (HS (l_tape a)) as [Wl Al]; [cbn; auto|].
  destruct (abs_args t) as [args|] eqn:EA; [|unfold an_new in Ea; rewrite EA in Ea; discriminate].
  destruct (sub_tapes t a args Ea EA) as (_ & Tl & _).
  assert (NoDup (t_deps (l_tape a))) as NDl by (rewrite Tl; cbn; auto).
  assert (mul_left Rops red (l_tape a) (m_const 1 (num_abs t) 1%R) = Ok (mm (m_const 1 (num_abs t) 1%R) (f_lmat N))) as El.
  { apply mul_left_spec; auto. rewrite m_const_tab; apply m_tab_wf. }
  assert (mul_right Rops red (l_tape a) (m_const (num_abs t) 1 1%R) = Ok (mm (f_lmat N) (m_const (num_abs t) 1 1%R))) as Er.
  { apply mul_right_spec; auto. rewrite m_const_tab; apply m_tab_wf. }
  exists t, w1, N, (mm (m_const 1 (num_abs t) 1%R) (f_lmat N)), (mm (f_lmat N) (m_const (num_abs t) 1 1%R)).
  rewrite Na in *. split; [auto|]. split; [auto|]. split; [auto|]. split; [exact (anf_lower t N W HN)|].
  split; [|auto]. exists w'. unfold bench_products, mbind, mlift. rewrite E0, Ni0. cbn [f_one Rops]. rewrite EZ, Ea, Na, El, Er. reflexivity.
Qed.

(** ** The generalized Jacobian at ones along ones *)
Open Scope R_scope.
Notation bsem' bits := (gsem Rops (branch_fop bits) b_cst b_val).

Lemma pick_true bits s u : 0 < u -> branch bits s u = 1.
Proof. intros H. unfold branch. destruct (Rlt_dec 0 u); [auto|lra]. Qed.
Lemma pick_neg bits s u : u < 0 -> branch bits s u = -1.
Proof. intros H. unfold branch. destruct (Rlt_dec 0 u); [lra|]. destruct (Rlt_dec u 0); [auto|lra]. Qed.

Lemma zeros_nz s u : u <> 0 -> zeros (s ++ [u]) = zeros s.
Proof.
  intros H. unfold zeros. rewrite filter_app, app_length. cbn. unfold is_zero. destruct (Req_EM_T u 0); [lra|]. cbn. lia.
Qed.
Lemma zeros_z s : zeros (s ++ [0]) = (zeros s + 1)%nat.
Proof. unfold zeros. rewrite filter_app, app_length. cbn. unfold is_zero. destruct (Req_EM_T 0 0); [auto|lra]. Qed.


Lemma mkB_eq a a' b b' c c' d : a = a' -> b = b' -> c = c' -> mkB a b c d = mkB a' b' c' d.
Proof. intros -> -> ->. reflexivity. Qed.

Lemma branch_max bits x y s : b_dep x || b_dep y = true ->
  let u := b_val x + b_tan x - (b_val y + b_tan y) in
  meth2 Rops (branch_fop bits) b_cst BMax x y s =
  Ok (mkB (Rmax (b_val x) (b_val y)) (Rmax (b_val x + b_tan x) (b_val y + b_tan y) - Rmax (b_val x) (b_val y))
          ((b_der x + b_der y + branch bits s u * (b_der x - b_der y)) / 2) true, s ++ [u]).
Proof.
  intros H u. cbn [meth2]. unfold m_max, m_add, m_sub, m_abs, m_mul, mbind, branch_fop. cbn. rewrite H. cbn.
  replace (b_val x - b_val y + (b_tan x - b_tan y)) with u by (unfold u; ring).
  rewrite <- !max_abs. replace (b_val x + b_tan x - (b_val y + b_tan y)) with u by reflexivity. rewrite ?orb_true_r.
  apply (f_equal (fun r => Ok (r, s ++ [u]))), mkB_eq; field.
Qed.
Lemma branch_min bits x y s : b_dep x || b_dep y = true ->
  let u := b_val x + b_tan x - (b_val y + b_tan y) in
  meth2 Rops (branch_fop bits) b_cst BMin x y s =
  Ok (mkB (Rmin (b_val x) (b_val y)) (Rmin (b_val x + b_tan x) (b_val y + b_tan y) - Rmin (b_val x) (b_val y))
          ((b_der x + b_der y - branch bits s u * (b_der x - b_der y)) / 2) true, s ++ [u]).
Proof.
  intros H u. cbn [meth2]. unfold m_min, m_add, m_sub, m_abs, m_mul, mbind, branch_fop. cbn. rewrite H. cbn.
  replace (b_val x - b_val y + (b_tan x - b_tan y)) with u by (unfold u; ring).
  rewrite <- !MethodFacts.min_abs. replace (b_val x + b_tan x - (b_val y + b_tan y)) with u by reflexivity. rewrite ?orb_true_r.
  apply (f_equal (fun r => Ok (r, s ++ [u]))), mkB_eq; field.
Qed.

(** an input, what max(x, 0) makes of it, and what min(_, 1) makes of that *)
Lemma br_zero bits e d env s : nth_error env e = Some (mkB 1 1 d true) ->
  bsem' bits (at_least_zero Rops e) env s (fun b env' s' => nth_error env' b = Some (mkB 1 1 d true) /\ zeros s' = zeros s).
Proof.
  intros E. apply gsem_bind, gsem_const. intros _.
  eapply gsem_bin; [apply gget_ext; exact E|apply gget_last|apply branch_max; reflexivity|]. cbn [b_cst b_val b_tan b_der Rops f_zero].
  split; [|apply zeros_nz; lra]. rewrite gget_last, pick_true by lra.
  rewrite !Rmax_left by lra. f_equal. apply mkB_eq; field.
Qed.
Lemma br_one bits e d env s : nth_error env e = Some (mkB 1 1 d true) ->
  bsem' bits (at_most_one Rops e) env s (fun b env' s' => nth_error env' b = Some (mkB 1 0 0 true) /\ zeros s' = zeros s).
Proof.
  intros E. apply gsem_bind, gsem_const. intros _.
  eapply gsem_bin; [apply gget_ext; exact E|apply gget_last|apply branch_min; reflexivity|]. cbn [b_cst b_val b_tan b_der Rops f_one].
  split; [|apply zeros_nz; lra]. rewrite gget_last, pick_true by lra.
  rewrite !Rmin_right by lra. f_equal. apply mkB_eq; field.
Qed.

(** the fold *)
Definition br_acc {A : Type} (d : list A) (a : bval) (s : list R) : Prop :=
  match d with
  | [] => a = mkB 0 0 0 false /\ zeros s = 0%nat
  | _ => a = mkB 1 0 0 true /\ zeros s = (length d - 1)%nat
  end.
Lemma br_max {A : Type} bits (d : list A) v a va e env s : nth_error env a = Some va -> nth_error env e = Some (mkB 1 0 0 true) ->
  br_acc d va s ->
  bsem' bits (b_bin BMax a e) env s (fun b env' s' => exists vb, nth_error env' b = Some vb /\ br_acc (d ++ [v]) vb s').
Proof.
  intros Ea Ee HA.
  eapply gsem_bin; [exact Ea|exact Ee|apply branch_max; cbn; apply orb_true_r|].
  eexists. split; [apply gget_last|]. destruct d as [|d0 d]; cbn [br_acc app] in *.
  - destruct HA as [-> Hz]. cbn [b_val b_tan b_der]. split; [|rewrite zeros_nz by lra; rewrite Hz; reflexivity].
    rewrite pick_neg by lra. rewrite !Rmax_right by lra. apply mkB_eq; field.
  - destruct HA as [-> Hz]. cbn [b_val b_tan b_der]. split.
    + rewrite !Rmax_left by lra. apply mkB_eq; field.
    + replace (1 + 0 - (1 + 0)) with 0 by ring. rewrite zeros_z, Hz. cbn. rewrite app_length. cbn. lia.
Qed.

Definition ones_in (v : list R) : list bval := map (fun d => mkB 1 1 d true) v.
Lemma ones_inputs n : forall v, length v = n -> b_inputs (repeat 1 n) (repeat 1 n) v = ones_in v.
Proof. induction n as [|n IH]; intros [|d v] L; try discriminate L; [reflexivity|]. cbn. rewrite IH; auto. Qed.
Lemma ones_elt v d q rest : ones_in v = d ++ q :: rest -> exists r, q = mkB 1 1 r true.
Proof.
  intros E. assert (In q (ones_in v)) as H by (rewrite E; apply in_elt). apply in_map_iff in H as (r & <- & _). eauto.
Qed.

Lemma lazy_branch bits n v : (1 <= n)%nat -> length v = n -> exists s,
  branch_eval bits (bench_lazy Rops n) (repeat 1 n) (repeat 1 n) v = Ok ([mkB 1 0 0 true], s) /\ zeros s = (n - 1)%nat.
Proof.
  intros Hn L. unfold branch_eval, bench_lazy. cbn [feval]. rewrite ones_inputs by auto.
  assert (length (ones_in v) = n) as LI by (unfold ones_in; rewrite map_length; auto).
  apply (gbody Rops (branch_fop bits) b_cst b_val n _ (ones_in v) [mkB 1 0 0 true] [] (fun s => zeros s = (n - 1)%nat) LI).
  apply gsem_bind, gsem_const. intros _. apply gsem_bind. eapply gsem_conseq.
  - apply (gsem_fold Rops (branch_fop bits) b_cst b_val _ br_acc (seq 0 n) (ones_in v) [] (length (ones_in v)) (b_cst 0)).
    + rewrite <- LI. apply gholds_ext, gseq_holds.
    + apply gget_last.
    + split; reflexivity.
    + intros d q rest a va e env1 s1 Ed Ea Ee HA. cbn in Ed. destruct (ones_elt _ _ _ _ Ed) as (r & ->).
      apply gsem_bind. eapply gsem_conseq; [apply br_zero; exact Ee|]. intros l ext s2 [Hl Z2] _.
      apply gsem_bind. eapply gsem_conseq; [eapply br_one; exact Hl|]. intros b ext2 s3 [Hb Z3] _.
      eapply br_max; [do 2 apply gget_ext; exact Ea|exact Hb|]. destruct d; cbn [br_acc] in *; rewrite Z3, Z2; exact HA.
  - intros b ext s1 (vb & Hb & HA) _. apply gsem_ret. cbn [app] in HA.
    destruct (ones_in v) as [|q l] eqn:EI; [cbn in LI; lia|]. cbn [br_acc] in HA. rewrite LI in HA. destruct HA as [-> HZ].
    split; [|exact HZ]. constructor; [exact Hb|constructor].
Qed.

Lemma br_map bits f g v rs env s : gholds env rs (map (fun d => mkB 1 1 d true) v) ->
  (forall e d env s, nth_error env e = Some (mkB 1 1 d true) ->
     bsem' bits (f e) env s (fun b env' s' => nth_error env' b = Some (g d) /\ zeros s' = zeros s)) ->
  bsem' bits (b_map f rs) env s (fun out env' s' => gholds env' out (map g v) /\ zeros s' = zeros s).
Proof.
  intros HH Hf. eapply gsem_conseq.
  - apply (gsem_map Rops (branch_fop bits) b_cst b_val f (fun d o s' => o = map (fun q => g (b_der q)) d /\ zeros s' = zeros s)
      rs (ones_in v) [] [] [] env s); auto; [constructor|].
    intros d q rest o e env1 s1 Ed Ee [-> HZ]. cbn in Ed. destruct (ones_elt _ _ _ _ Ed) as (r & ->).
    eapply gsem_conseq; [apply Hf; exact Ee|]. intros b ext s2 [Hb Z2]. exists (g r). split; [auto|]. rewrite map_app. split; [auto|congruence].
  - intros out ext s1 (o & Ho & -> & HZ). split; [|auto]. cbn in Ho. unfold ones_in in Ho. rewrite map_map in Ho. exact Ho.
Qed.

Lemma eager_branch bits n v : (1 <= n)%nat -> length v = n -> exists s,
  branch_eval bits (bench_eager Rops n) (repeat 1 n) (repeat 1 n) v = Ok ([mkB 1 0 0 true], s) /\ zeros s = (n - 1)%nat.
Proof.
  intros Hn L. unfold branch_eval, bench_eager. cbn [feval]. rewrite ones_inputs by auto.
  assert (length (ones_in v) = n) as LI by (unfold ones_in; rewrite map_length; auto).
  unfold mbind, mlift. rewrite LI, Nat.eqb_refl. cbn [assert].
  destruct (gbody Rops (branch_fop bits) b_cst b_val n (fun x => l <b b_map (at_least_zero Rops) x ;; b <b b_map (at_most_one Rops) l ;;
    z <b b_const (f_zero Rops) ;; r <b b_for (fun a e => b_bin BMax a e) b z ;; b_ret [r])
    (ones_in v) [mkB 1 0 0 true] [] (fun s => zeros s = (n - 1)%nat) LI) as (s & E & HZ); [|rewrite E; exists s; auto].
  apply gsem_bind. eapply gsem_conseq; [apply (br_map bits _ (fun d => mkB 1 1 d true) v); [rewrite <- LI; apply gseq_holds|apply br_zero]|].
  intros l ext s1 [Hl Z1] _. apply gsem_bind. eapply gsem_conseq; [apply (br_map bits _ (fun d => mkB 1 0 0 true) v); [exact Hl|apply br_one]|].
  intros b ext2 s2 [Hb Z2] _. apply gsem_bind, gsem_const. intros _. apply gsem_bind. eapply gsem_conseq.
  - apply (gsem_fold Rops (branch_fop bits) b_cst b_val _ br_acc b (map (fun _ => mkB 1 0 0 true) v) [] _ (b_cst 0)).
    + apply gholds_ext. exact Hb.
    + apply gget_last.
    + split; [reflexivity|]. rewrite Z2, Z1. reflexivity.
    + intros d q rest a va e env1 s3 Ed Ea Ee HA. cbn in Ed.
      assert (q = mkB 1 0 0 true) as ->.
      { assert (In q (map (fun _ : R => mkB 1 0 0 true) v)) as H by (rewrite Ed; apply in_elt). apply in_map_iff in H as (? & <- & _). auto. }
      eapply br_max; eauto.
  - intros r ext3 s3 (vb & Hr & HA) _. apply gsem_ret. cbn [app] in HA.
    destruct v as [|q l']; [cbn in L; lia|]. cbn [map br_acc] in HA. cbn [length] in HA. rewrite map_length in HA. destruct HA as [-> HZ].
    split; [constructor; [exact Hr|constructor]|]. rewrite HZ, <- L. reflexivity.
Qed.

Lemma propagate_branch bits n v : length v = n -> exists s,
  branch_eval bits (bench_propagate Rops n) (repeat 1 n) (repeat 1 n) v = Ok (ones_in v, s) /\ zeros s = 0%nat.
Proof.
  intros L. unfold branch_eval, bench_propagate. cbn [feval]. rewrite ones_inputs by auto.
  assert (length (ones_in v) = n) as LI by (unfold ones_in; rewrite map_length; auto).
  unfold mbind, mlift. rewrite LI, Nat.eqb_refl. cbn [assert].
  destruct (gbody Rops (branch_fop bits) b_cst b_val n (b_map (at_least_zero Rops)) (ones_in v) (ones_in v) [] (fun s => zeros s = 0%nat) LI)
    as (s & E & HZ); [|rewrite E, LI, Nat.eqb_refl; exists s; auto].
  eapply gsem_conseq; [apply (br_map bits _ (fun d => mkB 1 1 d true) v); [rewrite <- LI; apply gseq_holds|apply br_zero]|].
  intros l ext s1 [Hl Z1]. auto.
Qed.

(** A function whose result has derivative 0 along the selected branches. *)
Lemma gj_zero red f n (w : world R) bits : rayon red -> once_f f -> fn_n f = Ok n ->
  (exists t w', fn_tape Rops f (repeat 1 n) w = Ok (t, w') /\ num_deps t = 1%nat) ->
  (forall v, length v = n -> exists s, branch_eval bits f (repeat 1 n) (repeat 1 n) v = Ok ([mkB 1 0 0 true], s) /\ zeros s = (n - 1)%nat) ->
  exists G w', generalized_jacobian Rops red f (repeat 1 n) (repeat 1 n) bits None w = Ok (G, w') /\
    g_hom G = m_const 1 n 0 /\ g_inh G = [0] /\ g_mult G = (n - 1)%nat.
Proof.
  intros HR HO En (t & w' & ET & Nd) HB.
  assert (length (repeat 1 n) = n) as L by apply repeat_length.
  destruct (once_anf t _ _ _ _ HO ET) as (ND & AO & _).
  destruct (fn_tape_wf Rops _ _ _ _ _ ET) as ([W _] & _ & _). destruct (anf_exists t W) as [N HN].
  destruct (gj_correct red f (repeat 1 n) (repeat 1 n) bits None w t w' N HR ltac:(rewrite L; exact En) ET ND AO HN eq_refl I)
    as (G & dz & sg & E & SW & HS & _ & SG & LG & HG).
  destruct (gj_branch red HR f (repeat 1 n) w t w' ET AO (repeat 1 n) bits None eq_refl I) as (G' & E' & H').
  assert (G' = G) as ->.
  { unfold generalized_jacobian, mbind, mlift in E. rewrite En, L, Nat.eqb_refl in E. cbn [assert] in E. rewrite ET, E' in E. cbn in E. congruence. }
  exists G, w'. split; [exact E|]. rewrite L in *. cbn [next_rows] in *. rewrite Nd in *.
  assert (shape (m_const 1 n 0) 1 n) as SC by (rewrite m_const_tab; apply shape_tab).
  assert (forall v, length v = n -> mulv (g_hom G) v = [0] /\ tape_forward Rops t (repeat 1 n) = Ok [0] /\ g_mult G = (n - 1)%nat) as HV.
  { intros v Lv. destruct (H' v Lv) as (ys & s & Eb & _ & Ef & Em & Ed). destruct (HB v Lv) as (s' & Eb' & Hz).
    rewrite Eb in Eb'. injection Eb' as -> ->. cbn [map b_tan b_der next_mult] in *. split; [|split; [auto|lia]].
    rewrite Ed. cbn [next_hom]. rewrite seed_rows_nodup; [rewrite mulv_id; auto|auto|apply shape_id|symmetry; exact Nd]. }
  assert (g_hom G = m_const 1 n 0) as EG.
  { apply (mulv_inj _ _ 1 n SG SC). intros v Lv. rewrite (proj1 (HV v Lv)). unfold mulv, m_const. cbn.
    f_equal. symmetry. apply LinearFacts.dot_repeat. }
  split; [auto|]. destruct (HV (repeat 1 n) L) as (M1 & F1 & Mu). split; [|exact Mu].
  specialize (HG (repeat 1 n) [0] L (compatible_dx N bits _ dz sg SW HS) F1). cbn [next_map] in HG. rewrite M1 in HG.
  destruct (g_inh G) as [|g [|? ?]]; try discriminate LG. cbn in HG. injection HG as HG. f_equal. lra.
Qed.

Theorem lazy_jacobian red n w bits : rayon red -> (1 <= n)%nat ->
  exists G w', generalized_jacobian Rops red (bench_lazy Rops n) (repeat 1 n) (repeat 1 n) bits None w = Ok (G, w') /\
    g_hom G = m_const 1 n 0 /\ g_inh G = [0] /\ g_mult G = (n - 1)%nat.
Proof.
  intros HR Hn. apply gj_zero; auto; [apply lazy_once| |].
  - destruct (lazy_tape Rops n (repeat 1 n) w (repeat_length _ _)) as (t & w' & ET & _ & Nd & _). eauto.
  - intros v L. apply lazy_branch; auto.
Qed.
Theorem eager_jacobian red n w bits : rayon red -> (1 <= n)%nat ->
  exists G w', generalized_jacobian Rops red (bench_eager Rops n) (repeat 1 n) (repeat 1 n) bits None w = Ok (G, w') /\
    g_hom G = m_const 1 n 0 /\ g_inh G = [0] /\ g_mult G = (n - 1)%nat.
Proof.
  intros HR Hn. apply gj_zero; auto; [apply eager_once| |].
  - destruct (eager_tape Rops n (repeat 1 n) w (repeat_length _ _)) as (t & w' & ET & _ & Nd & _). eauto.
  - intros v L. apply eager_branch; auto.
Qed.

(** ** The chain *)
Lemma chain_is {F : Type} (Fo : Fops F) n : bench_chain Fo n =
  Ok (Chain [bench_propagate Fo n; bench_propagate Fo n; bench_propagate Fo n; bench_eager Fo n]).
Proof. unfold bench_chain, chain_append, chain_new. cbn. repeat (rewrite ?Nat.eqb_refl; cbn). reflexivity. Qed.

Lemma ones_max n : map (fun v => Rmax v 0) (repeat 1 n) = repeat 1 n.
Proof. induction n; cbn; [auto|]. rewrite IHn, Rmax_left by lra. reflexivity. Qed.

Lemma chain_reaches n x : length x = n ->
  reaches Rops [bench_propagate Rops n; bench_propagate Rops n; bench_propagate Rops n; bench_eager Rops n] x [top (map clamp x)].
Proof.
  intros L. assert (forall x, length x = n -> length (map (fun v => Rmax v 0) x) = n) as LM by (intros; rewrite map_length; auto).
  assert (forall x, map clamp (map (fun v => Rmax v 0) x) = map clamp x) as CM.
  { intros y. rewrite map_map. apply map_ext. intros a. unfold clamp. f_equal. apply Rmax_left. apply Rmax_r. }
  do 3 (eapply reaches_cons; [cbn; symmetry; f_equal; auto|rewrite eval_float_v, (propagate_value n) by auto; reflexivity|]).
  eapply reaches_cons; [cbn; symmetry; f_equal; auto|rewrite eval_float_v, (eager_value n) by auto; reflexivity|].
  rewrite !CM. apply reaches_nil.
Qed.

Lemma ones_out v : map b_val (ones_in v) = repeat 1 (length v) /\ map b_tan (ones_in v) = repeat 1 (length v) /\ map b_der (ones_in v) = v.
Proof. unfold ones_in. induction v as [|a v (A & B & C)]; cbn; [auto|]. rewrite A, B, C. auto. Qed.

Lemma chain_stages n v : (1 <= n)%nat -> length v = n -> exists s,
  stages [bench_propagate Rops n; bench_propagate Rops n; bench_propagate Rops n; bench_eager Rops n] (repeat 1 n) (repeat 1 n) v =
    Ok ([mkB 1 0 0 true], s) /\ zeros s = (n - 1)%nat.
Proof.
  intros Hn L. destruct (propagate_branch [0%N] n v L) as (s1 & E1 & Z1). destruct (eager_branch [0%N] n v Hn L) as (s2 & E2 & Z2).
  destruct (ones_out v) as (A & B & C). rewrite L in A, B.
  eexists. split.
  - cbn [stages]. rewrite E1. cbn [bind fst snd]. rewrite A, B, C. rewrite E1. cbn [bind fst snd]. rewrite A, B, C.
    rewrite E1. cbn [bind fst snd]. rewrite A, B, C, E2. cbn. reflexivity.
  - rewrite !zeros_app, Z1, Z2. cbn. lia.
Qed.

Theorem chain_jacobian red est n w k : rayon red -> (1 <= n)%nat -> accurate est 5 -> (2 <= match k with Some k => k | None => 4 end)%nat ->
  exists c, bench_chain Rops n = Ok c /\ exists G w',
    generalized_jacobian_chain Rops red est c (repeat 1 n) (repeat 1 n) k w = Ok (G, w') /\
    g_hom G = m_const 1 n 0 /\ g_inh G = [0] /\ g_mult G = (n - 1)%nat.
Proof.
  intros HR Hn HA Hk. rewrite chain_is. eexists. split; [reflexivity|]. set (c := Chain _).
  set (k' := match k with Some k => k | None => 4%nat end) in Hk.
  assert (forall w, generalized_jacobian_chain Rops red est c (repeat 1 n) (repeat 1 n) k w =
    generalized_jacobian_chain Rops red est c (repeat 1 n) (repeat 1 n) (Some k') w) as Ek by (intros; destruct k; reflexivity).
  rewrite Ek.
  assert (tame (fn_iter c) (repeat 1 n)) as HT.
  { eapply once_tame; [|apply chain_reaches; apply repeat_length].
    repeat constructor; try apply propagate_once; apply eager_once. }
  destruct (compose_branch red (fn_iter c) HR (repeat 1 n) (repeat 1 n) HT eq_refl) as (G & E & H).
  pose proof (gj_chain_compose red est c (repeat 1 n) (repeat 1 n) k' w) as Q. rewrite E in Q.
  destruct Q as [w' Q]; [exact HA|cbn; lia|exact Hk|].
  exists G, w'. split; [exact Q|].
  assert (length (repeat 1 n) = n) as L by apply repeat_length.
  assert (forall v, length v = n -> shape (g_hom G) 1 n /\ length (g_inh G) = 1%nat /\ mulv (g_hom G) v = [0] /\
    vadd (mulv (g_hom G) (repeat 1 n)) (g_inh G) = [0] /\ g_mult G = (n - 1)%nat) as HV.
  { intros v Lv. rewrite <- L in Lv. destruct (H v Lv) as (ys & s & Es & SG & LG & Ed & Et & Em). rewrite L in *.
    destruct (chain_stages n v Hn Lv) as (s' & Es' & Z). assert (Ok (ys, s) = Ok ([mkB 1 0 0 true], s')) as X by (rewrite <- Es, <- Es'; reflexivity). injection X as -> ->.
    cbn in *. rewrite Em. auto. }
  destruct (HV (repeat 1 n) L) as (SG & LG & M1 & Et & Em).
  split.
  { apply (mulv_inj _ _ 1 n SG); [rewrite m_const_tab; apply shape_tab|]. intros v Lv.
    destruct (HV v Lv) as (_ & _ & -> & _). unfold mulv, m_const. cbn. f_equal. symmetry. apply LinearFacts.dot_repeat. }
  split; [|exact Em]. rewrite M1 in Et. destruct (g_inh G) as [|g [|? ?]]; try discriminate LG. cbn in Et. injection Et as Et. f_equal. lra.
Qed.

(** ** Values *)
Lemma top_spec l : (forall e, In e l -> 0 <= e) -> (forall e, In e l -> e <= top l) /\ (top l = 0 \/ In (top l) l) /\ 0 <= top l.
Proof.
  induction l as [|e l IH] using rev_ind; intros H.
  - split; [intros ? []|]. unfold top. cbn. split; [auto|lra].
  - destruct IH as (A & B & C); [intros; apply H, in_or_app; auto|]. rewrite top_app.
    assert (0 <= e) as He by (apply H, in_or_app; cbn; auto). split; [|split].
    + intros a Ha. apply in_app_or in Ha as [Ha|[<-|[]]]; [eapply Rle_trans; [apply A; auto|apply Rmax_l]|apply Rmax_r].
    + unfold Rmax. destruct (Rle_dec (top l) e); [right; apply in_or_app; cbn; auto|].
      destruct B as [B|B]; [auto|right; apply in_or_app; auto].
    + eapply Rle_trans; [exact C|apply Rmax_l].
Qed.
Lemma clamp_range e : 0 <= clamp e <= 1.
Proof. unfold clamp. split; [apply Rmin_glb; [apply Rmax_r|lra]|apply Rmin_r]. Qed.

(** greatest of the clamped inputs *)
Lemma top_clamp (x : list R) : (1 <= length x)%nat -> (forall e, In e x -> clamp e <= top (map clamp x)) /\
  exists e, In e x /\ top (map clamp x) = clamp e.
Proof.
  intros L. destruct (top_spec (map clamp x)) as (A & B & C).
  { intros e He. apply in_map_iff in He as (a & <- & _). apply clamp_range. }
  split; [intros e He; apply A, in_map, He|]. destruct B as [B|B].
  - destruct x as [|e x]; [cbn in L; lia|]. exists e. split; [now left|]. rewrite B.
    apply Rle_antisym; [apply clamp_range|]. rewrite <- B. apply A. now left.
  - apply in_map_iff in B as (e & <- & He). eauto.
Qed.

Theorem bench_values n x w : (1 <= n)%nat -> length x = n -> exists y c, bench_chain Rops n = Ok c /\
  eval_float Rops (bench_lazy Rops n) x w = Ok ([y], w) /\ eval_float Rops (bench_eager Rops n) x w = Ok ([y], w) /\
  eval_float Rops c x w = Ok ([y], w) /\
  (forall e, In e x -> clamp e <= y) /\ exists e, In e x /\ y = clamp e.
Proof.
  intros Hn L. exists (top (map clamp x)). eexists. split; [apply chain_is|].
  rewrite !eval_float_v, lazy_value, eager_value by auto. split; [reflexivity|]. split; [reflexivity|].
  split; [|apply top_clamp; lia].
  set (m0 := map (fun v => Rmax v 0)).
  assert (forall y, length y = n -> length (m0 y) = n) as LM by (intros; unfold m0; rewrite map_length; auto).
  assert (forall y, map clamp (m0 y) = map clamp y) as CM.
  { intros y. unfold m0. rewrite map_map. apply map_ext. intros a. unfold clamp. f_equal. apply Rmax_left. apply Rmax_r. }
  do 3 (rewrite v_eval_cons, propagate_value by auto; fold m0; cbn [bind]).
  rewrite v_eval_cons, eager_value by auto. cbn [bind]. rewrite !CM. reflexivity.
Qed.

Lemma propagate_float n x (w : world R) : length x = n ->
  eval_float Rops (bench_propagate Rops n) x w = Ok (map (fun v => Rmax v 0) x, w).
Proof. intros L. now rewrite eval_float_v, (propagate_value n). Qed.

Theorem bench_sizes (F : Type) (Fo : Fops F) n (x : list F) w : length x = n ->
  (exists t w', fn_tape Fo (bench_lazy Fo n) x w = Ok (t, w') /\ num_indeps t = n /\ num_deps t = 1%nat /\ num_abs t = (3 * n)%nat) /\
  (exists t w', fn_tape Fo (bench_eager Fo n) x w = Ok (t, w') /\ num_indeps t = n /\ num_deps t = 1%nat /\ num_abs t = (3 * n)%nat) /\
  (exists t w', fn_tape Fo (bench_propagate Fo n) x w = Ok (t, w') /\ num_indeps t = n /\ num_deps t = n /\ num_abs t = n).
Proof. intros L. split; [|split]; [apply lazy_tape|apply eager_tape|apply propagate_tape]; auto. Qed.
