(** The benchmark functions: loops, values, what is recorded. *)
From Coq Require Import Reals Lra List Arith ZArith NArith Bool Lia.
From Verif Require Import Base Float Operation Tape AContext Methods Function Spec TapeFacts AContextFacts RealInst Param Instances
  FunctionFacts RecordFacts ReplayFacts Replay2 MethodSpec MethodFacts Matrix MatrixFacts AbsNormal AbsNormalFacts
  TapeShape Build BuildFacts BuildRange PairBuild BuildSem UnitFacts UnitTests Benches.
Import ListNotations.
Open Scope nat_scope.

(** ** Loops *)
Section Loops.
Context {F V St : Type} (Fo : Fops F) (fop : OpCode -> V -> option V -> M St V) (cst : F -> V) (val : V -> F).
Notation gsem := (gsem Fo fop cst val).

(** [P done a s]: what holds after the elements [done] *)
Lemma gsem_fold (f : nat -> nat -> builder F nat) (P : list V -> V -> St -> Prop) rs : forall vs done a va env s,
  gholds env rs vs -> nth_error env a = Some va -> P done va s ->
  (forall d v rest a va e env s, done ++ vs = d ++ v :: rest -> nth_error env a = Some va -> nth_error env e = Some v -> P d va s ->
     gsem (f a e) env s (fun b env' s' => exists vb, nth_error env' b = Some vb /\ P (d ++ [v]) vb s')) ->
  gsem (b_for f rs a) env s (fun b env' s' => exists vb, nth_error env' b = Some vb /\ P (done ++ vs) vb s').
Proof.
  induction rs as [|e rs IH]; intros vs done a va env s HH HA HP HS; inversion HH as [|? v ? vs' E HH']; subst; cbn [b_for].
  - apply gsem_ret. rewrite app_nil_r. eauto.
  - apply gsem_bind. eapply gsem_conseq; [eapply (HS done v vs'); eauto|].
    intros b ext s1 (vb & Eb & HP1) _.
    pose proof (IH vs' (done ++ [v]) b vb (env ++ ext) s1) as H. rewrite <- app_assoc in H. cbn in H. apply H; auto.
    now apply gholds_ext.
Qed.

Lemma gsem_map (f : nat -> builder F nat) (P : list V -> list V -> St -> Prop) rs : forall vs done outs ovs env s,
  gholds env rs vs -> gholds env outs ovs -> P done ovs s ->
  (forall d v rest o e env s, done ++ vs = d ++ v :: rest -> nth_error env e = Some v -> P d o s ->
     gsem (f e) env s (fun b env' s' => exists vb, nth_error env' b = Some vb /\ P (d ++ [v]) (o ++ [vb]) s')) ->
  gsem (b_for (fun out a => b <b f a ;; b_ret (out ++ [b])) rs outs) env s
    (fun out env' s' => exists o, gholds env' out o /\ P (done ++ vs) o s').
Proof.
  induction rs as [|e rs IH]; intros vs done outs ovs env s HH HO HP HS; inversion HH as [|? v ? vs' E HH']; subst; cbn [b_for].
  - apply gsem_ret. rewrite app_nil_r. eauto.
  - apply gsem_bind, gsem_bind. eapply gsem_conseq; [eapply (HS done v vs'); eauto|].
    intros b ext s1 (vb & Eb & HP1) _. apply gsem_ret. intros _.
    pose proof (IH vs' (done ++ [v]) (outs ++ [b]) (ovs ++ [vb]) (env ++ ext) s1) as H. rewrite <- app_assoc in H. cbn in H.
    apply H; auto; [now apply gholds_ext|]. apply Forall2_app; [now apply gholds_ext|]. constructor; [auto|constructor].
Qed.
End Loops.

(** ** Values *)
Open Scope R_scope.
Definition clamp (e : R) : R := Rmin (Rmax e 0) 1.
Definition top (l : list R) : R := fold_left Rmax l 0.

Lemma top_app l e : top (l ++ [e]) = Rmax (top l) e.
Proof. unfold top. now rewrite fold_left_app. Qed.

Notation vsem := (gsem Rops (v_fop Rops) (fun c : R => c) (fun v : R => v)).
Lemma vsem_bin b x y vx vy env (Q : nat -> list R -> unit -> Prop) : In b [BAdd; BSub; BMul; BDiv; BMax; BMin] ->
  nth_error env x = Some vx -> nth_error env y = Some vy -> Q (length env) (env ++ [sem2 b vx vy]) tt -> vsem (b_bin b x y) env tt Q.
Proof. intros Hb Ex Ey H. eapply gsem_bin; [exact Ex|exact Ey|apply v_bin; exact Hb|exact H]. Qed.

Lemma val_zero e v env : nth_error env e = Some v ->
  vsem (at_least_zero Rops e) env tt (fun b env' _ => nth_error env' b = Some (Rmax v 0)).
Proof.
  intros E. apply gsem_bind, gsem_const. intros _. eapply vsem_bin; [cbn; tauto|now apply gget_ext; exact E|apply gget_last|apply gget_last].
Qed.
Lemma val_one e v env : nth_error env e = Some v ->
  vsem (at_most_one Rops e) env tt (fun b env' _ => nth_error env' b = Some (Rmin v 1)).
Proof.
  intros E. apply gsem_bind, gsem_const. intros _. eapply vsem_bin; [cbn; tauto|now apply gget_ext; exact E|apply gget_last|apply gget_last].
Qed.

Lemma val_map f g (x : list R) rs env : gholds env rs x ->
  (forall e v env, nth_error env e = Some v -> vsem (f e) env tt (fun b env' _ => nth_error env' b = Some (g v))) ->
  vsem (b_map f rs) env tt (fun out env' _ => gholds env' out (map g x)).
Proof.
  intros HH Hf. eapply gsem_conseq.
  - apply (gsem_map Rops (v_fop Rops) (fun c => c) (fun v => v) f (fun d o _ => o = map g d) rs x [] [] [] env tt); auto; [constructor|].
    intros d v rest o e env1 [] _ Ee ->. eapply gsem_conseq; [apply Hf; exact Ee|]. intros b ext [] Hb.
    exists (g v). rewrite map_app. auto.
  - intros out ext [] (o & Ho & ->). exact Ho.
Qed.

Lemma lazy_value n x : length x = n -> v_eval Rops (bench_lazy Rops n) x = Ok [top (map clamp x)].
Proof.
  intros L. unfold v_eval, bench_lazy. cbn [feval].
  destruct (gbody Rops (v_fop Rops) (fun c => c) (fun v => v) n (fun x => z <b b_const (f_zero Rops) ;;
    r <b b_for (fun a e => l <b at_least_zero Rops e ;; b <b at_most_one Rops l ;; b_bin BMax a b) x z ;;
    b_ret [r]) x [top (map clamp x)] tt (fun _ => True) L) as ([] & E & _); [|rewrite E; reflexivity].
  apply gsem_bind, gsem_const. intros _. apply gsem_bind. eapply gsem_conseq.
  - apply (gsem_fold Rops (v_fop Rops) (fun c => c) (fun v => v) _ (fun d a _ => a = top (map clamp d)) (seq 0 n) x [] (length x) 0).
    + subst n. apply gholds_ext, gseq_holds.
    + apply gget_last.
    + reflexivity.
    + intros d v rest a va e env1 [] _ Ea Ee ->.
      apply gsem_bind. eapply gsem_conseq; [apply val_zero; exact Ee|]. intros l ext [] Hl _.
      apply gsem_bind. eapply gsem_conseq; [apply val_one; exact Hl|]. intros b ext2 [] Hb _.
      eapply vsem_bin; [cbn; tauto|do 2 apply gget_ext; exact Ea|exact Hb|].
      eexists. split; [apply gget_last|]. rewrite map_app. cbn [map]. rewrite top_app. reflexivity.
  - intros b ext [] (vb & Hb & ->) _. apply gsem_ret. split; [|auto]. constructor; [auto|constructor].
Qed.

Lemma eager_value n x : length x = n -> v_eval Rops (bench_eager Rops n) x = Ok [top (map clamp x)].
Proof.
  intros L. unfold v_eval, bench_eager. cbn [feval]. unfold mbind, mlift. rewrite L, Nat.eqb_refl. cbn [assert].
  destruct (gbody Rops (v_fop Rops) (fun c => c) (fun v => v) n (fun x => l <b b_map (at_least_zero Rops) x ;; b <b b_map (at_most_one Rops) l ;;
    z <b b_const (f_zero Rops) ;; r <b b_for (fun a e => b_bin BMax a e) b z ;; b_ret [r])
    x [top (map clamp x)] tt (fun _ => True) L) as ([] & E & _); [|rewrite E; reflexivity].
  apply gsem_bind. eapply gsem_conseq; [apply val_map with (g := fun v => Rmax v 0); [subst n; apply gseq_holds|apply val_zero]|].
  intros l ext [] Hl _. apply gsem_bind. eapply gsem_conseq; [apply val_map with (g := fun v => Rmin v 1); [exact Hl|apply val_one]|].
  intros b ext2 [] Hb _. apply gsem_bind, gsem_const. intros _. apply gsem_bind. eapply gsem_conseq.
  - apply (gsem_fold Rops (v_fop Rops) (fun c => c) (fun v => v) _ (fun d a _ => a = top d) b (map (fun v => Rmin v 1) (map (fun v => Rmax v 0) x)) [] _ 0).
    + apply gholds_ext. exact Hb.
    + apply gget_last.
    + reflexivity.
    + intros d v rest a va e env1 [] _ Ea Ee ->. eapply vsem_bin; [cbn; tauto|exact Ea|exact Ee|].
      eexists. split; [apply gget_last|]. rewrite top_app. reflexivity.
  - intros r ext3 [] (vb & Hr & ->) _. apply gsem_ret. split; [|auto]. cbn [app] in Hr. rewrite map_map in Hr. constructor; [exact Hr|constructor].
Qed.

Lemma propagate_value n x : length x = n -> v_eval Rops (bench_propagate Rops n) x = Ok (map (fun v => Rmax v 0) x).
Proof.
  intros L. unfold v_eval, bench_propagate. cbn [feval]. unfold mbind, mlift. rewrite L, Nat.eqb_refl. cbn [assert].
  destruct (gbody Rops (v_fop Rops) (fun c => c) (fun v => v) n (b_map (at_least_zero Rops)) x (map (fun v => Rmax v 0) x) tt (fun _ => True) L)
    as ([] & E & _); [|rewrite E, map_length, L, Nat.eqb_refl; reflexivity].
  eapply gsem_conseq; [apply val_map with (g := fun v => Rmax v 0); [subst n; apply gseq_holds|apply val_zero]|].
  intros l ext [] Hl. auto.
Qed.

(** ** What is recorded, in every arithmetic *)
Open Scope nat_scope.
Section Recorded.
Context {F : Type} (Fo : Fops F).
Notation rsem := (gsem Fo (from_op Fo Some) (af_const Fo) af_v).

(** max or min of two variables of which one at least is on the tape *)
Lemma mm_state b w c ni nd na x y : In b [BMax; BMin] -> state w c ni nd na -> UnitFacts.fits c x -> UnitFacts.fits c y ->
  in_ctx c x \/ in_ctx c y ->
  exists r w', meth2 Fo (from_op Fo Some) (af_const Fo) b x y w = Ok (r, w') /\ in_ctx c r /\ state w' c ni nd (na + 1).
Proof.
  intros Hb HS Hx Hy H.
  assert (forall z : AF F, in_ctx c z -> UnitFacts.fits c z) as FI by (right; auto).
  assert (in_ctx c x \/ exists y', Some y = Some y' /\ in_ctx c y') as H' by (destruct H; eauto).
  destruct (op_state Fo w c ni nd na Add x (Some y) HS eq_refl) as (r1 & w1 & E1 & I1 & S1); auto.
  destruct (op_state Fo w1 c ni nd _ Sub x (Some y) S1 eq_refl) as (r2 & w2 & E2 & I2 & S2); auto.
  destruct (op_state Fo w2 c ni nd _ Abs r2 None S2 eq_refl) as (r3 & w3 & E3 & I3 & S3); auto.
  cbn in Hb. destruct Hb as [<-|[<-|[]]]; cbn [meth2]; unfold m_max, m_min, m_add, m_sub, m_abs, m_mul;
    unfold mbind at 1; rewrite E1; unfold mbind at 1; rewrite E2; unfold mbind at 1; rewrite E3.
  - destruct (op_state Fo w3 c ni nd _ Add r1 (Some r3) S3 eq_refl) as (r4 & w4 & E4 & I4 & S4); auto.
    unfold mbind at 1. rewrite E4.
    destruct (op_state Fo w4 c ni nd _ Mul (af_const Fo (f_half Fo)) (Some r4) S4 eq_refl) as (r5 & w5 & E5 & I5 & S5); eauto.
    { left; reflexivity. }
    exists r5, w5. split; [exact E5|]. split; auto. cbn in S5. rewrite !Nat.add_0_r in S5. exact S5.
  - destruct (op_state Fo w3 c ni nd _ Sub r1 (Some r3) S3 eq_refl) as (r4 & w4 & E4 & I4 & S4); auto.
    unfold mbind at 1. rewrite E4.
    destruct (op_state Fo w4 c ni nd _ Mul (af_const Fo (f_half Fo)) (Some r4) S4 eq_refl) as (r5 & w5 & E5 & I5 & S5); eauto.
    { left; reflexivity. }
    exists r5, w5. split; [exact E5|]. split; auto. cbn in S5. rewrite !Nat.add_0_r in S5. exact S5.
Qed.

Lemma rec_zero c ni nd na e v env w : nth_error env e = Some v -> in_ctx c v -> state w c ni nd na ->
  rsem (at_least_zero Fo e) env w (fun b env' w' => exists r, nth_error env' b = Some r /\ in_ctx c r /\ state w' c ni nd (na + 1)).
Proof.
  intros E I HS. apply gsem_bind, gsem_const. intros _.
  destruct (mm_state BMax w c ni nd na v (af_const Fo (f_zero Fo))) as (r & w' & E' & I' & S'); auto;
    [cbn; tauto|right; auto|left; reflexivity|].
  eapply gsem_bin; [apply gget_ext; exact E|apply gget_last|exact E'|]. exists r. split; [apply gget_last|auto].
Qed.
Lemma rec_one c ni nd na e v env w : nth_error env e = Some v -> in_ctx c v -> state w c ni nd na ->
  rsem (at_most_one Fo e) env w (fun b env' w' => exists r, nth_error env' b = Some r /\ in_ctx c r /\ state w' c ni nd (na + 1)).
Proof.
  intros E I HS. apply gsem_bind, gsem_const. intros _.
  destruct (mm_state BMin w c ni nd na v (af_const Fo (f_one Fo))) as (r & w' & E' & I' & S'); auto;
    [cbn; tauto|right; auto|left; reflexivity|].
  eapply gsem_bin; [apply gget_ext; exact E|apply gget_last|exact E'|]. exists r. split; [apply gget_last|auto].
Qed.

Lemma rec_map c ni nd na f vs rs env w : gholds env rs vs -> Forall (in_ctx c) vs -> state w c ni nd na ->
  (forall na e v env w, nth_error env e = Some v -> in_ctx c v -> state w c ni nd na ->
     rsem (f e) env w (fun b env' w' => exists r, nth_error env' b = Some r /\ in_ctx c r /\ state w' c ni nd (na + 1))) ->
  rsem (b_map f rs) env w (fun out env' w' => exists o, gholds env' out o /\
    length o = length vs /\ Forall (in_ctx c) o /\ state w' c ni nd (na + length vs)).
Proof.
  intros HH HF HS Hf. eapply gsem_conseq.
  - apply (gsem_map Fo (from_op Fo Some) (af_const Fo) af_v f (fun d o w => length o = length d /\ Forall (in_ctx c) o /\ state w c ni nd (na + length d))
      rs vs [] [] [] env w); auto; [constructor|cbn; rewrite Nat.add_0_r; auto|].
    intros d v rest o e env1 w1 Ed Ee (L & FO & S1). cbn in Ed.
    assert (in_ctx c v) as Iv. { rewrite Forall_forall in HF. apply HF. rewrite Ed. apply in_elt. }
    eapply gsem_conseq; [eapply Hf; eauto|]. intros b ext w2 (r & Hr & Ir & Sr). exists r. split; [auto|].
    rewrite !app_length, L. cbn. split; [auto|]. split; [apply Forall_app; auto|]. now rewrite Nat.add_assoc.
  - intros out ext w1 (o & Ho & L & FO & S1). exists o. auto.
Qed.

(** the fold: its value is a constant before the first element and on the tape after it *)
Definition acc_ok (c : nat) (d : list (AF F)) (a : AF F) : Prop := (d = [] /\ af_ctx a = None) \/ in_ctx c a.
Lemma acc_fits c d a : acc_ok c d a -> UnitFacts.fits c a.
Proof. intros [[_ H]|H]; [left|right]; auto. Qed.

Lemma rec_fold c ni nd na k vs rs f a0 va0 env w : gholds env rs vs -> Forall (in_ctx c) vs -> state w c ni nd na ->
  nth_error env a0 = Some va0 -> af_ctx va0 = None ->
  (forall na d a va e v env w, nth_error env a = Some va -> acc_ok c d va -> nth_error env e = Some v -> in_ctx c v -> state w c ni nd na ->
     rsem (f a e) env w (fun b env' w' => exists r, nth_error env' b = Some r /\ in_ctx c r /\ state w' c ni nd (na + k))) ->
  rsem (b_for f rs a0) env w (fun b env' w' => exists r, nth_error env' b = Some r /\
    acc_ok c vs r /\ state w' c ni nd (na + k * length vs)).
Proof.
  intros HH HF HS Ha Ia Hf.
  apply (gsem_fold Fo (from_op Fo Some) (af_const Fo) af_v f (fun d a w => acc_ok c d a /\ state w c ni nd (na + k * length d)) rs vs [] a0 va0); auto.
  - split; [left; auto|]. cbn. rewrite Nat.mul_0_r, Nat.add_0_r. auto.
  - intros d v rest a va e env1 w1 Ed Ea Ee (HA & S1). cbn in Ed.
    assert (in_ctx c v) as Iv. { rewrite Forall_forall in HF. apply HF. rewrite Ed. apply in_elt. }
    eapply gsem_conseq; [eapply (Hf _ d); eauto|]. intros b ext w2 (r & Hr & Ir & Sr). exists r. split; [auto|].
    split; [right; auto|]. rewrite app_length. cbn. replace (na + k * (length d + 1)) with (na + k * length d + k) by nia. auto.
Qed.

Lemma deps_state c (outs : list (AF F)) : forall (w : world F) ni nd na, Forall (UnitFacts.fits c) outs -> state w c ni nd na ->
  exists w', set_dep_slice Some c outs w = Ok (tt, w') /\ state w' c ni (nd + length outs) na.
Proof.
  induction outs as [|o outs IH]; intros w ni nd na HF HS; cbn [set_dep_slice length].
  - exists w. rewrite Nat.add_0_r. auto.
  - inversion HF as [|? ? Ho HF']; subst. destruct HS as (i & Hi & L1 & L2 & L3).
    assert (exists w1, set_dep Some c o w = Ok (tt, w1) /\ state w1 c ni (nd + 1) na) as (w1 & E1 & S1).
    { unfold set_dep, with_ctx. rewrite Hi. destruct Ho as [Ho|(k & Ho)]; rewrite Ho.
      - cbn. eexists. split; [reflexivity|]. eexists. rewrite upd_same. split; [reflexivity|]. cbn.
        rewrite app_length, filter_app, app_length. cbn. rewrite L2, L3. auto.
      - rewrite Nat.eqb_refl. cbn. eexists. split; [reflexivity|]. eexists. rewrite upd_same. split; [reflexivity|]. cbn.
        rewrite app_length. cbn. rewrite L2. auto. }
    unfold mbind. rewrite E1. destruct (IH w1 ni (nd + 1) na HF' S1) as (w' & E & S').
    exists w'. rewrite E. split; [auto|]. replace (nd + Datatypes.S (length outs)) with (nd + 1 + length outs) by lia. auto.
Qed.

Lemma recorded_counts f x w m na :
  (forall c ys w1, length ys = length x -> Forall (in_ctx c) ys -> state w1 c (length x) 0 0 ->
     exists outs w2, eval Fo f ys w1 = Ok (outs, w2) /\ length outs = m /\ Forall (UnitFacts.fits c) outs /\ state w2 c (length x) 0 na) ->
  exists t w', fn_tape Fo f x w = Ok (t, w') /\ num_indeps t = length x /\ num_deps t = m /\ num_abs t = na.
Proof.
  intros H. unfold fn_tape. unfold mbind at 1. cbn [ctx_new].
  set (c := w_next w). set (w0 := mkWorld _ _).
  assert (state w0 c 0 0 0) as S0.
  { exists (mkInner [] [] [] []). split; [|auto]. cbn. now rewrite Nat.eqb_refl. }
  destruct (set_indeps_state c (map (af_const Fo) x) w0 0 0 0 S0) as (ys & w1 & E1 & L1 & F1 & S1).
  unfold mbind at 1. rewrite E1. rewrite map_length in *.
  destruct (H c ys w1 L1 F1 S1) as (outs & w2 & E2 & L2 & F2 & S2).
  unfold mbind at 1. rewrite E2.
  destruct (deps_state c outs w2 (length x) 0 na F2 S2) as (w3 & E3 & (i & Hi & N1 & N2 & N3)).
  unfold mbind at 1. rewrite E3. unfold mbind at 1. unfold ctx_tape, with_ctx. rewrite Hi. cbn [mbind ctx_drop mret].
  eexists _, _. split; [reflexivity|]. unfold num_indeps, num_deps, num_abs. cbn. rewrite N1, N2, N3, L2. auto.
Qed.

Theorem lazy_tape n x w : length x = n ->
  exists t w', fn_tape Fo (bench_lazy Fo n) x w = Ok (t, w') /\ num_indeps t = n /\ num_deps t = 1 /\ num_abs t = 3 * n.
Proof.
  intros L. rewrite <- L. apply recorded_counts. intros c ys w1 Ly FY S1. rewrite L in *.
  unfold eval, bench_lazy. cbn [feval].
  assert (rsem ((fun x => z <b b_const (f_zero Fo) ;;
    r <b b_for (fun a e => l <b at_least_zero Fo e ;; b <b at_most_one Fo l ;; b_bin BMax a b) x z ;;
    b_ret [r]) (seq 0 n)) ys w1 (fun outs env w2 => exists r, gholds env outs [r] /\ UnitFacts.fits c r /\ state w2 c n 0 (3 * n))) as (outs & ext & w2 & (r & Hr & Fr & Sr) & E).
  { apply gsem_bind, gsem_const. intros _. apply gsem_bind. eapply gsem_conseq.
    - apply (rec_fold c n 0 0 3 ys (seq 0 n) _ (length ys) (af_const Fo (f_zero Fo)) (ys ++ [af_const Fo (f_zero Fo)]) w1); auto.
      + rewrite <- Ly. apply gholds_ext, gseq_holds.
      + apply gget_last.
      + intros na d a va e v env1 w2 Ea HA Ee Iv S2.
        apply gsem_bind. eapply gsem_conseq; [eapply rec_zero; eauto|]. intros l ext w3 (rl & Hl & Il & S3) _.
        apply gsem_bind. eapply gsem_conseq; [eapply rec_one; eauto|]. intros b ext2 w4 (rb & Hb & Ib & S4) _.
        destruct (mm_state BMax w4 c n 0 (na + 1 + 1) va rb) as (r & w5 & E' & I' & S'); [cbn; tauto|exact S4|eapply acc_fits; eauto|right; auto|auto|].
        eapply gsem_bin; [do 2 apply gget_ext; exact Ea|exact Hb|exact E'|]. exists r. split; [apply gget_last|]. split; [auto|].
        replace (na + 3) with (na + 1 + 1 + 1) by lia. auto.
    - intros b ext w2 (r & Hr & HA & S2) _. apply gsem_ret. exists r. split; [constructor; [auto|constructor]|].
      split; [eapply acc_fits; eauto|]. rewrite Ly in S2. exact S2. }
  exists [r], w2. unfold b_body. specialize (E (fun o _ => Ret o)). rewrite Ly in E. rewrite E. cbn [run]. unfold mlift.
  rewrite (gholds_get _ _ _ Hr). cbn. auto.
Qed.

Theorem eager_tape n x w : length x = n ->
  exists t w', fn_tape Fo (bench_eager Fo n) x w = Ok (t, w') /\ num_indeps t = n /\ num_deps t = 1 /\ num_abs t = 3 * n.
Proof.
  intros L. rewrite <- L. apply recorded_counts. intros c ys w1 Ly FY S1. rewrite L in *.
  unfold eval, bench_eager. cbn [feval]. unfold mbind, mlift. rewrite Ly, Nat.eqb_refl. cbn [assert].
  assert (rsem ((fun x => l <b b_map (at_least_zero Fo) x ;; b <b b_map (at_most_one Fo) l ;;
    z <b b_const (f_zero Fo) ;; r <b b_for (fun a e => b_bin BMax a e) b z ;; b_ret [r]) (seq 0 n)) ys w1
    (fun outs env w2 => exists r, gholds env outs [r] /\ UnitFacts.fits c r /\ state w2 c n 0 (3 * n))) as (outs & ext & w2 & (r & Hr & Fr & Sr) & E).
  { apply gsem_bind. eapply gsem_conseq; [eapply rec_map; [rewrite <- Ly; apply gseq_holds|exact FY|exact S1|]|].
    { intros. eapply rec_zero; eauto. }
    intros l ext w2 (vl & Hl & Ll & Fl & S2) _.
    apply gsem_bind. eapply gsem_conseq; [eapply rec_map; [exact Hl|exact Fl|exact S2|]|].
    { intros. eapply rec_one; eauto. }
    intros b ext2 w3 (vb & Hb & Lb & Fb & S3) _.
    apply gsem_bind, gsem_const. intros _. apply gsem_bind. eapply gsem_conseq.
    - eapply (rec_fold c n 0 _ 1 vb b _ _ (af_const Fo (f_zero Fo)) _ w3); auto.
      + apply gholds_ext. exact Hb.
      + exact S3.
      + apply gget_last.
      + intros na d a va e v env1 w4 Ea HA Ee Iv S4.
        destruct (mm_state BMax w4 c n 0 na va v) as (r & w5 & E' & I' & S'); [cbn; tauto|exact S4|eapply acc_fits; eauto|right; auto|auto|].
        eapply gsem_bin; [exact Ea|exact Ee|exact E'|]. exists r. split; [apply gget_last|]. auto.
    - intros r ext3 w4 (vr & Hr & HA & S4) _. apply gsem_ret. exists vr. split; [constructor; [auto|constructor]|].
      split; [eapply acc_fits; eauto|]. rewrite Lb, Ll, Ly in S4. replace (3 * n) with (0 + n + n + 1 * n) by lia. exact S4. }
  exists [r], w2. unfold b_body. specialize (E (fun o _ => Ret o)). rewrite Ly in E. rewrite E. cbn [run]. unfold mlift.
  rewrite (gholds_get _ _ _ Hr). cbn. auto.
Qed.

Theorem propagate_tape n x w : length x = n ->
  exists t w', fn_tape Fo (bench_propagate Fo n) x w = Ok (t, w') /\ num_indeps t = n /\ num_deps t = n /\ num_abs t = n.
Proof.
  intros L. rewrite <- L. apply recorded_counts. intros c ys w1 Ly FY S1. rewrite L in *.
  unfold eval, bench_propagate. cbn [feval]. unfold mbind, mlift. rewrite Ly, Nat.eqb_refl. cbn [assert].
  assert (rsem (b_map (at_least_zero Fo) (seq 0 n)) ys w1 (fun outs env w2 => exists o, gholds env outs o /\
    length o = length ys /\ Forall (in_ctx c) o /\ state w2 c n 0 (0 + length ys))) as (outs & ext & w2 & (r & Hr & Lr & Fr & Sr) & E).
  { eapply rec_map; [rewrite <- Ly; apply gseq_holds|exact FY|exact S1|]. intros. eapply rec_zero; eauto. }
  exists r, w2. unfold b_body. specialize (E (fun o _ => Ret o)). rewrite Ly in E. rewrite E. cbn [run]. unfold mlift.
  rewrite (gholds_get _ _ _ Hr). rewrite Lr, Ly, Nat.eqb_refl. cbn. split; [auto|]. split; [auto|].
  split; [eapply Forall_impl; [|exact Fr]; right; auto|]. rewrite Ly in Sr. exact Sr.
Qed.
End Recorded.
